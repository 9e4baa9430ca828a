(** Every step of the cluster, crash or not, is a sequence of the moves of [Member_Abs]. *)
From Coq Require Import List Arith Bool Lia.
From Verif Require Import Base Member_Model Member_Spec Member_Tree Member_Abs Member_Inv Member_Overlap.
Import ListNotations.

Definition yes (vs : list (nat * bool)) : list nat := map fst (filter (fun x => Bool.eqb (snd x) true) vs).
Definition absN (m : mem) (p : pstate) : anode :=
  mkA (p_term (m_p m)) (p_term p) (p_cfg (m_p m)) (m_role m) (m_inc m) (yes (m_votes m)) (m_seen m).

(** What the abstract state knows of a message. *)
Definition msgOk (s : astate) (x : msg) : Prop :=
  match x with
  | RequestPreVote _ _ _ _ _ _ => True
  | PreVote from _ _ _ ft _ mc => In (fst from, mc, ft) (s_rep s)
  | RequestVote from to t _ _ mc => In (from, t, mc) (s_rv s) /\ to <> fst from
  | Vote from _ cand g ft t mc => In (fst from, mc, ft) (s_rep s) /\ ft <= t /\
      (g = true -> ft < t -> In (fst from, t, cand) (s_vt s))
  | AppendEntries from _ t _ mc => In (from, t, mc) (s_ae s) /\ In (fst from, mc, t) (s_rep s)
  | Ack from _ _ t _ mc => In (fst from, mc, t) (s_rep s)
  end.

Definition Rel (g : gstate) (s : astate) : Prop :=
  (forall k, let nd := g_node g k in
     s_nd s k = absN (n_mem nd) (d_p (n_disk nd)) /\ p_cfg (d_p (n_disk nd)) = p_cfg (m_p (n_mem nd))) /\
  forall x, In x (g_net g) -> msgOk s x.

Section refine.
Variable v0 : nat.
Variable founders : list nat.
Notation Inv := (Inv v0 founders).

Definition grows (s s' : astate) : Prop :=
  incl (s_rv s) (s_rv s') /\ incl (s_vt s) (s_vt s') /\ incl (s_rep s) (s_rep s') /\ incl (s_ae s) (s_ae s').
Lemma ast_grows : forall s s', ast s s' -> grows s s'.
Proof. intros s s' H. unfold grows. destruct H; simpl; repeat split; auto using incl_refl, incl_tl. Qed.
Lemma asts_grows : forall s s', asts s s' -> grows s s'.
Proof.
  intros s s' H. induction H as [|s1 s2 A IH B]; [unfold grows; repeat split; apply incl_refl|].
  apply ast_grows in B. unfold grows in *.
  destruct IH as (a & b & c & d). destruct B as (a' & b' & c' & d').
  repeat split; eapply incl_tran; eauto.
Qed.
Lemma msgOk_grows : forall s s' x, grows s s' -> msgOk s x -> msgOk s' x.
Proof.
  intros s s' x (a & b & c & d) H. destruct x; simpl in *; auto.
  - destruct H; auto.
  - destruct H as (h1 & h2 & h3). auto.
  - destruct H; auto.
Qed.

(** [sim]: node [n], with memory [m] and durable state [p], can move to [m'], [p'] after
    sending [ms]. *)
Definition sim (s : astate) (n : nat) (m' : mem) (p' : pstate) (ms : list msg) : Prop :=
  exists s', asts s s' /\ (forall k, k <> n -> s_nd s' k = s_nd s k) /\
             s_nd s' n = absN m' p' /\ p_cfg p' = p_cfg (m_p m') /\ Forall (msgOk s') ms.

Lemma sim_same : forall s n m p, s_nd s n = absN m p -> p_cfg p = p_cfg (m_p m) -> sim s n m p [].
Proof. intros. exists s. split; [constructor|]. auto. Qed.

(** After moves that reach [m1], [p1]. *)
Lemma sim_then : forall s n m1 p1 ms m' p', Inv s -> sim s n m1 p1 [] ->
  (forall s1, Inv s1 -> grows s s1 -> s_nd s1 n = absN m1 p1 -> p_cfg p1 = p_cfg (m_p m1) -> sim s1 n m' p' ms) ->
  sim s n m' p' ms.
Proof.
  intros s n m1 p1 ms m' p' I (s1 & A & B & C & D & _) H.
  destruct (H s1) as (s2 & A' & B' & C' & D' & E'); auto.
  - eapply inv_steps; eauto.
  - apply asts_grows; auto.
  - exists s2. split; [eapply asts_trans; eauto|]. split; [|auto].
    intros k N. rewrite B', B; auto.
Qed.

(** One move, then reports of the result. *)
Lemma sim_one : forall s s1 n m p, ast s s1 -> (forall k, k <> n -> s_nd s1 k = s_nd s k) ->
  s_nd s1 n = absN m p -> p_cfg p = p_cfg (m_p m) -> sim s n m p [].
Proof. intros s s1 n m p A B C D. exists s1. split; [apply asts_one; auto|]. auto. Qed.

Lemma sim_quiet : forall s n m p m' p', s_nd s n = absN m p ->
  p_term (m_p m') = p_term (m_p m) -> p_cfg (m_p m') = p_cfg (m_p m) ->
  m_inc m' = m_inc m -> m_votes m' = m_votes m ->
  p_term p <= p_term p' <= p_term (m_p m') -> p_cfg p' = p_cfg (m_p m') ->
  m_role m' = m_role m \/ m_role m' = Follower ->
  (forall q c t, In (q, (c, t)) (m_seen m') -> In (q, (c, t)) (m_seen m) \/ In (q, c, t) (s_rep s) \/ t <> c_term c \/ t = 0) ->
  sim s n m' p' [].
Proof.
  intros s n m p m' p' E T C I V D Dc R S.
  assert (ast s (setN s n (let a := s_nd s n in mkA (a_mt a) (p_term p') (a_cfg a) (m_role m') (a_inc a) (a_votes a) (m_seen m')))).
  { apply a_quiet; rewrite E; simpl; auto. lia. }
  eapply sim_one; eauto; simpl.
  - intros k N. apply upd_other; auto.
  - rewrite upd_same, E. unfold absN. simpl. congruence.
Qed.

(** Reports, in answer to [s]'s own state. *)
Lemma sim_report : forall s n m p ms, s_nd s n = absN m p -> p_cfg p = p_cfg (m_p m) ->
  (forall s', grows s s' -> In (n, p_cfg (m_p m), p_term (m_p m)) (s_rep s') -> Forall (msgOk s') ms) ->
  sim s n m p ms.
Proof.
  intros s n m p ms E C H. exists (addRep s (n, a_cfg (s_nd s n), a_mt (s_nd s n))).
  assert (A : ast s (addRep s (n, a_cfg (s_nd s n), a_mt (s_nd s n)))) by constructor.
  split; [apply asts_one; auto|]. split; auto. split; auto. split; auto. apply H.
  - apply ast_grows; auto.
  - left. rewrite E. auto.
Qed.

Lemma lookup_in : forall A x (l : list (nat * A)) a, lookup x l = Some a -> In (x, a) l.
Proof.
  induction l as [|(y & b) l IH]; simpl; [discriminate|]. intros a.
  destruct (Nat.eqb_spec y x) as [->|]; [intros [= ->]; auto|auto].
Qed.
Lemma drop_in : forall A x (l : list (nat * A)) y, In y (drop x l) -> In y l.
Proof. intros A x l y H. apply filter_In in H. tauto. Qed.

Lemma sim_seen : forall s n m p q c t, Inv s -> s_nd s n = absN m p -> p_cfg p = p_cfg (m_p m) ->
  In (q, c, t) (s_rep s) -> sim s n (seen q c t m) p [].
Proof.
  intros s n m p q c t I E C Hr. eapply sim_quiet; eauto.
  - simpl. pose proof (i_le2 _ _ _ I n) as L. rewrite E in L. simpl in L. lia.
  - intros q' c' t' Hs. simpl in Hs. destruct Hs as [Hs|Hs]; [|left; eapply drop_in; eauto].
    injection Hs as <- <- <-. destruct (0 <? t) eqn:T; [right; left; auto|].
    apply Nat.ltb_ge in T. destruct (i_rep _ _ _ I _ _ _ Hr) as (_ & L & _).
    right. right. destruct (lookup q (m_seen m)) as [(o & j)|]; [|right; auto].
    destruct (Nat.eq_dec j 0); [right; auto|left; lia].
Qed.

Lemma sim_seenMsg : forall s n m p x b, Inv s -> s_nd s n = absN m p -> p_cfg p = p_cfg (m_p m) ->
  msgOk s x -> sim s n (seenMsg x b m) p [].
Proof.
  intros s n m p x b I E C H. unfold seenMsg.
  assert (S0 : sim s n m p []) by (apply sim_same; auto).
  destruct x; simpl; auto; destruct b; auto; apply sim_seen; auto; simpl in H; tauto.
Qed.

(** Raising the term, with or without a configuration. *)
Lemma sim_raise : forall s n m p t oc m', Inv s -> s_nd s n = absN m p ->
  p_term (m_p m) < t -> (forall c, oc = Some c -> source s t c) ->
  p_term (m_p m') = t -> p_cfg (m_p m') = match oc with Some c => newer c (p_cfg (m_p m)) | None => p_cfg (m_p m) end ->
  m_role m' = Follower -> m_inc m' = m_inc m -> m_votes m' = m_votes m -> m_seen m' = m_seen m ->
  sim s n m' (m_p m') [].
Proof.
  intros s n m p t oc m' I E L S T C R In_ V Se.
  assert (A : ast s (setN s n (let a := s_nd s n in
       mkA t t (match oc with Some c => newer c (a_cfg a) | None => a_cfg a end) Follower (a_inc a) (a_votes a) (a_seen a)))).
  { apply a_raise; auto. rewrite E. auto. }
  eapply sim_one; eauto; simpl.
  - intros k N. apply upd_other; auto.
  - rewrite upd_same, E. unfold absN. simpl. congruence.
Qed.

Lemma becomeFollower_cfg : forall m t c, p_term (m_p m) < t ->
  m_p (fst (becomeFollower m t (Some c))) = mkP t None (newer c (p_cfg (m_p m))).
Proof.
  intros m t c L. unfold becomeFollower, newer. simpl.
  replace (p_term (m_p m) <? t) with true by (symmetry; apply Nat.ltb_lt; auto). simpl.
  destruct (versionGT c (p_cfg (m_p m))); auto.
Qed.

Definition after (p : pstate) (es : list effect) : pstate := d_p (eff_disks (mkD p []) es).
Lemma after_spec : forall es d, d_p (eff_disks d es) = after (d_p d) es.
Proof.
  unfold after, eff_disks. induction es as [|e es IH]; intros d; simpl; auto.
  rewrite IH. symmetry. rewrite IH. destruct e; reflexivity.
Qed.
Lemma after_app : forall a b p, after p (a ++ b) = after (after p a) b.
Proof.
  intros. unfold after at 1. unfold eff_disks. rewrite fold_left_app.
  change (d_p (eff_disks (eff_disks (mkD p []) a) b) = after (after p a) b). rewrite after_spec. reflexivity.
Qed.
Lemma after_sends : forall ms p, after p (map Send ms) = p.
Proof. induction ms as [|x ms IH]; intros p; auto. apply IH. Qed.
Lemma msgs_sends : forall ms, eff_msgs (map Send ms) = ms.
Proof. induction ms as [|x ms IH]; simpl; auto. f_equal. apply IH. Qed.
Lemma eff_msgs_app : forall a b, eff_msgs (a ++ b) = eff_msgs a ++ eff_msgs b.
Proof. intros. unfold eff_msgs. apply flat_map_app. Qed.

(** A handler's run is simulated. *)
Definition simH (s : astate) (n : nat) (p : pstate) (r : mem * list effect) : Prop :=
  sim s n (fst r) (after p (snd r)) (eff_msgs (snd r)).

Lemma bF_saved : forall s n m p t c, Inv s -> s_nd s n = absN m p -> p_term (m_p m) < t -> source s t c ->
  let '(m1, e1) := becomeFollower m t (Some c) in simH s n p (m1, e1 ++ [SaveTerm (m_p m1)]).
Proof.
  intros s n m p t c I E L S.
  pose proof (becomeFollower_cfg m t c L) as B.
  assert (F : let r := becomeFollower m t (Some c) in m_role (fst r) = Follower /\ m_inc (fst r) = m_inc m /\
                m_votes (fst r) = m_votes m /\ m_seen (fst r) = m_seen m /\ eff_msgs (snd r) = []).
  { simpl. destruct (versionGT c (p_cfg (m_p m))); auto. }
  destruct (becomeFollower m t (Some c)) as (m1 & e1) eqn:BF. cbn [fst snd] in *.
  destruct F as (F1 & F2 & F3 & F4 & F5).
  unfold simH. cbn [fst snd]. rewrite after_app, eff_msgs_app, F5.
  change (after (after p e1) [SaveTerm (m_p m1)]) with (m_p m1). cbn [eff_msgs flat_map app].
  eapply (sim_raise s n m p t (Some c)); eauto; try (rewrite B; auto).
  intros c0 [= <-]. auto.
Qed.

Lemma simH_same : forall s n m p, s_nd s n = absN m p -> p_cfg p = p_cfg (m_p m) -> simH s n p (m, []).
Proof. intros. apply sim_same; auto. Qed.

Lemma le_mt : forall s n m p, Inv s -> s_nd s n = absN m p -> p_term p <= p_term (m_p m).
Proof. intros s n m p I E. pose proof (i_le2 _ _ _ I n) as L. rewrite E in L. auto. Qed.

Ltac quiet := eapply sim_quiet; eauto; simpl; auto; try (split; [auto|lia]); try tauto.

Lemma sim_preVoteReq : forall s n nd from t li lt mc o, Inv s -> s_nd s n = absN (n_mem nd) (d_p (n_disk nd)) ->
  p_cfg (d_p (n_disk nd)) = p_cfg (m_p (n_mem nd)) ->
  simH s n (d_p (n_disk nd)) (handleRequestPreVote n nd from t li lt mc o).
Proof.
  intros. unfold simH, handleRequestPreVote. cbn [fst snd].
  change (after _ [Send ?x]) with (d_p (n_disk nd)). apply sim_report; auto.
  intros s' G R. constructor; [|constructor]. simpl. auto.
Qed.

Lemma sim_tallyPre : forall s n m p from cand g t mc o, Inv s -> s_nd s n = absN m p -> p_cfg p = p_cfg (m_p m) ->
  simH s n p (tallyPreVote n m from cand g t mc o).
Proof.
  intros s n m p from cand g t mc o I E C. pose proof (le_mt s n m p I E) as L. unfold tallyPreVote.
  destruct (negb (t =? m_pv m) || negb (is_foll (m_role m))); [apply simH_same; auto|].
  destruct (negb (m_pv m =? S (p_term (m_p m)))); [quiet|].
  destruct (versionGT mc (p_cfg (m_p m)) || negb (has (c_mem (p_cfg (m_p m))) (fst from))); [apply simH_same; auto|].
  cbv zeta.
  match goal with |- context [if ?b then _ else if ?c then _ else _] => destruct b; [quiet|destruct c; quiet] end.
Qed.

Lemma sim_requestVote : forall s n nd from to t li lt mc o, Inv s -> s_nd s n = absN (n_mem nd) (d_p (n_disk nd)) ->
  p_cfg (d_p (n_disk nd)) = p_cfg (m_p (n_mem nd)) -> msgOk s (RequestVote from to t li lt mc) -> to = n ->
  simH s n (d_p (n_disk nd)) (handleRequestVote n nd from t li lt mc o).
Proof.
  intros s n nd from to t li lt mc o I E C M ->. destruct M as (RV & NE).
  set (m := n_mem nd) in *. set (p := d_p (n_disk nd)) in *. pose proof (le_mt s n m p I E) as L.
  unfold handleRequestVote. fold m. cbv zeta.
  (* report first *)
  assert (S1 : forall m' p' ms,
     (forall s1, Inv s1 -> grows s s1 -> s_nd s1 n = absN m p -> In (n, p_cfg (m_p m), p_term (m_p m)) (s_rep s1) -> sim s1 n m' p' ms) ->
     sim s n m' p' ms).
  { intros m' p' ms H. set (s1 := addRep s (n, a_cfg (s_nd s n), a_mt (s_nd s n))).
    assert (A : ast s s1) by constructor.
    destruct (H s1) as (s2 & A' & B' & C'); auto.
    - eapply inv_step; eauto.
    - apply ast_grows; auto.
    - left. rewrite E. auto.
    - exists s2. split; [eapply asts_trans; [apply asts_one; eauto|auto]|]. split; auto. }
  assert (Fin : forall s1 m' p' g, s_nd s1 n = absN m' p' -> p_cfg p' = p_cfg (m_p m') -> p_term (m_p m) <= p_term (m_p m') ->
     In (n, p_cfg (m_p m), p_term (m_p m)) (s_rep s1) ->
     (g = true -> p_term (m_p m) < p_term (m_p m') -> In (n, p_term (m_p m'), from) (s_vt s1)) ->
     sim s1 n m' p' [Vote (n, m_inc m) (fst from) from g (p_term (m_p m)) (p_term (m_p m')) (p_cfg (m_p m))]).
  { intros s1 m' p' g A B D R V. exists s1. split; [constructor|]. split; auto. split; auto. split; auto.
    constructor; [|constructor]. simpl. auto. }
  destruct (t <? p_term (m_p m)) eqn:T1.
  { apply S1. intros s1 I1 G1 E1 R1. cbn [fst snd eff_msgs flat_map app]. change (after p [Send ?x]) with p.
    apply Fin; auto. intros; discriminate. }
  apply Nat.ltb_ge in T1.
  destruct (is_leader (m_role m) || o_sticky o).
  { apply S1. intros s1 I1 G1 E1 R1. cbn [fst snd eff_msgs flat_map app]. change (after p [SaveTerm (m_p m); Send ?x]) with (m_p m).
    eapply sim_then with (m1 := m) (p1 := m_p m); [auto|quiet|].
    intros s2 I2 G2 E2 C2. apply Fin; auto; [apply G2; auto|intros; discriminate]. }
  destruct (p_term (m_p m) <? t) eqn:T2.
  - apply Nat.ltb_lt in T2. pose proof (becomeFollower_cfg m t mc T2) as B.
    assert (F : let r := becomeFollower m t (Some mc) in m_role (fst r) = Follower /\ m_inc (fst r) = m_inc m /\
                m_votes (fst r) = m_votes m /\ m_seen (fst r) = m_seen m /\ eff_msgs (snd r) = []).
    { simpl. destruct (versionGT mc (p_cfg (m_p m))); auto. }
    destruct (becomeFollower m t (Some mc)) as (m1 & e1). cbn [fst snd negb andb] in *.
    destruct F as (F1 & F2 & F3 & F4 & F5).
    destruct (logUpToDateAsOurs (m_p m1) (d_log (n_disk nd)) t li lt mc) eqn:U; apply S1; intros s1 I1 G1 E1 R1; cbn [fst snd];
      rewrite after_app, eff_msgs_app, F5; change (after (after p e1) [SaveTerm ?q; Send ?x]) with q; cbn [eff_msgs flat_map app].
    + rewrite B in *. cbn [p_term p_cfg p_vote m_p] in *.
      assert (V : versionGT (newer mc (p_cfg (m_p m))) mc = false).
      { unfold logUpToDateAsOurs in U. cbn [p_cfg] in U. destruct (versionGT (newer mc (p_cfg (m_p m))) mc); auto; discriminate. }
      set (s2 := addVT (setN s1 n (let a := s_nd s1 n in mkA t t (newer mc (a_cfg a)) Follower (a_inc a) (a_votes a) (a_seen a))) (n, t, from)).
      assert (A : ast s1 s2).
      { apply (a_vote s1 n t from mc); try (rewrite E1; auto). apply G1; auto. auto. }
      match goal with |- sim s1 n ?m2 ?p2 ?ms => destruct (Fin s2 m2 p2 true) as (s3 & X1 & X2 & X3 & X4 & X5) end; simpl.
      * rewrite upd_same, E1. unfold absN. simpl. congruence.
      * auto.
      * lia.
      * auto.
      * left; auto.
      * exists s3. split; [eapply asts_trans; [apply asts_one; eauto|auto]|]. split; auto.
        intros k N. rewrite X2 by auto. simpl. rewrite upd_other by auto. auto.
    + eapply sim_then with (m1 := m1) (p1 := m_p m1); [auto| |].
      * eapply (sim_raise s1 n m p t (Some mc)); eauto; try (rewrite B; auto). intros c [= <-]. left. exists from. apply G1; auto.
      * intros s2 I2 G2 E2 C2. apply Fin; auto; [rewrite B; simpl; lia|apply G2; auto|intros; discriminate].
  - apply Nat.ltb_ge in T2. cbn [negb andb].
    destruct (match p_vote (m_p m) with Some v => negb (who_eqb v from) | None => false end).
    { apply S1. intros s1 I1 G1 E1 R1. cbn [fst snd eff_msgs flat_map app]. change (after p [Send ?x]) with p.
      apply Fin; auto. intros; discriminate. }
    destruct (logUpToDateAsOurs (m_p m) (d_log (n_disk nd)) t li lt mc) eqn:U; apply S1; intros s1 I1 G1 E1 R1; cbn [fst snd app];
      change (after p [SaveTerm ?q; Send ?x]) with q; cbn [eff_msgs flat_map app].
    + match goal with |- sim s1 n ?m2 ?p2 ?ms => eapply sim_then with (m1 := m2) (p1 := p2); [auto|quiet|] end.
      intros s2 I2 G2 E2 C2. apply Fin; auto; simpl; [apply G2; auto|lia].
    + eapply sim_then with (m1 := m) (p1 := m_p m); [auto|quiet|].
      intros s2 I2 G2 E2 C2. apply Fin; auto; [apply G2; auto|lia].
Qed.

(** Leaders. *)
Lemma sim_lead : forall s n m p l t Q, Inv s -> s_nd s n = absN m p ->
  (m_role m = Candidate /\ t = p_term (m_p m) /\ Q = n :: yes (m_votes m)) \/
  (m_role m = Follower /\ c_mem (p_cfg (m_p m)) = [n] /\ Q = [n] /\
     ((c_term (p_cfg (m_p m)) < p_term (m_p m) /\ t = p_term (m_p m)) \/
      (c_term (p_cfg (m_p m)) = p_term (m_p m) /\ t = S (p_term (m_p m))))) ->
  length (c_mem (p_cfg (m_p m))) < 2 * length Q ->
  let p' := mkP t (p_vote (m_p m)) (stamp t (n, m_inc m) (p_cfg (m_p m))) in
  forall ok k tos, let m' := mkM p' Leader (m_inc m) (m_votes m) 0 [] 0 (m_seen m) k [] ok in
  simH s n p (m', [Wal l] ++ map (fun to => Send (newAE n m' l to)) tos ++ [SaveTerm p']).
Proof.
  intros s n m p l t Q I E H Mj p' ok k tos m'.
  unfold simH. cbn [fst snd]. rewrite !after_app, !eff_msgs_app.
  change (after (after (after p [Wal l]) ?x) [SaveTerm p']) with p'.
  rewrite <- (map_map (newAE n m' l) Send), msgs_sends. cbn [eff_msgs flat_map app]. rewrite app_nil_r.
  pose proof (a_win s n t Q) as W. rewrite E in W. cbn [a_role a_cfg a_mt a_votes a_inc a_seen absN] in W.
  specialize (W H Mj). set (s1 := addK _ _) in W.
  assert (E1 : s_nd s1 n = absN m' p') by (unfold s1; simpl; rewrite upd_same; reflexivity).
  pose proof (a_beat s1 n) as B. rewrite E1 in B. specialize (B eq_refl). set (s2 := addAE _ _) in B.
  pose proof (a_report s2 n) as R. change (s_nd s2 n) with (s_nd s1 n) in R. rewrite E1 in R. set (s3 := addRep _ _) in R.
  exists s3. split; [|split; [|split; [|split]]]; auto.
  - econstructor; [econstructor; [apply asts_one; eauto|eauto]|eauto].
  - intros x N. simpl. rewrite upd_other; auto.
  - apply Forall_forall. intros x Hx. apply in_map_iff in Hx. destruct Hx as (to & <- & _). simpl. auto.
Qed.

Lemma sim_becomeLeader : forall s n m p l r, Inv s -> s_nd s n = absN m p ->
  (m_role m = Candidate /\ length (c_mem (p_cfg (m_p m))) < 2 * S (length (yes (m_votes m)))) \/
  (m_role m = Follower /\ c_mem (p_cfg (m_p m)) = [n]) ->
  becomeLeader n m l = Some r -> simH s n p r.
Proof.
  intros s n m p l r I E H B. unfold becomeLeader in B.
  destruct (is_leader (m_role m)); [discriminate|].
  destruct (p_term (m_p m) <? c_term (p_cfg (m_p m))) eqn:T0; [discriminate|]. apply Nat.ltb_ge in T0.
  destruct (c_term (p_cfg (m_p m)) <? p_term (m_p m)) eqn:T1.
  - apply Nat.ltb_lt in T1. injection B as <-.
    destruct H as [(R & L)|(R & M)].
    + apply (sim_lead s n m p _ _ (n :: yes (m_votes m))); auto.
    + apply (sim_lead s n m p _ _ [n]); auto 10. rewrite M. simpl. lia.
  - apply Nat.ltb_ge in T1. destruct (has _ _ && _); [|discriminate]. injection B as <-.
    destruct H as [(R & L)|(R & M)].
    + pose proof (i_cand _ _ _ I n) as X. rewrite E in X. destruct (X R) as (Y & _). simpl in Y. lia.
    + apply (sim_lead s n m p _ _ [n]); auto; [|rewrite M; simpl; lia].
      right. split; auto. split; auto. split; auto. right. split; auto. lia.
Qed.

Lemma has_in : forall m x, has m x = true <-> In x m.
Proof.
  intros. unfold has. rewrite existsb_exists. split.
  - intros (y & A & B). apply Nat.eqb_eq in B. subst. auto.
  - intros. exists x. rewrite Nat.eqb_refl. auto.
Qed.

Lemma sim_elect : forall s n nd r, Inv s -> s_nd s n = absN (n_mem nd) (d_p (n_disk nd)) ->
  p_cfg (d_p (n_disk nd)) = p_cfg (m_p (n_mem nd)) ->
  beginElection n nd = Some r -> simH s n (d_p (n_disk nd)) r.
Proof.
  intros s n nd r I E C H. unfold beginElection in H.
  set (m := n_mem nd) in *. set (p := d_p (n_disk nd)) in *.
  destruct (is_foll (m_role m)) eqn:R; [|discriminate].
  assert (Rf : m_role m = Follower) by (destruct (m_role m); try discriminate; auto).
  cbn [negb orb] in H. destruct (_ || _); [discriminate|].
  destruct (has (c_mem (p_cfg (m_p m))) n) eqn:M; [|discriminate]. apply has_in in M. cbn [negb] in H.
  destruct (length (c_mem (p_cfg (m_p m))) =? 1) eqn:L1.
  - apply Nat.eqb_eq in L1. unfold simH. eapply sim_then with (m1 := resetPre m) (p1 := p); [auto| |].
    + pose proof (le_mt s n m p I E). quiet.
    + intros s1 I1 G1 E1 C1. eapply sim_becomeLeader; eauto. right. split; auto.
      simpl. destruct (c_mem (p_cfg (m_p m))) as [|x [|y z]]; try discriminate. destruct M as [->|[]]. auto.
  - injection H as <-. pose proof (a_elect s n) as A. rewrite E in A. specialize (A Rf M).
    eexists. split; [apply asts_one; exact A|]. cbn [fst snd].
    rewrite <- (map_map (fun to => RequestVote (n, m_inc m) to (S (p_term (m_p m))) (length (d_log (n_disk nd))) (lastTerm (d_log (n_disk nd))) (p_cfg (m_p m))) Send).
    rewrite after_sends, msgs_sends. split; [|split; [|split]].
    + intros k N. simpl. apply upd_other; auto.
    + simpl. rewrite upd_same. reflexivity.
    + auto.
    + apply Forall_forall. intros x Hx. apply in_map_iff in Hx. destruct Hx as (to & <- & Ho). simpl. split; auto.
      apply filter_In in Ho. destruct Ho as (_ & Ho). destruct (Nat.eqb_spec to n); [discriminate|auto].
Qed.

Lemma yes_count : forall vs, count true vs = length (yes vs).
Proof. intros. unfold count, yes. rewrite map_length. reflexivity. Qed.
Lemma quorum_half : forall m b k, quorum m b <= k -> 1 <= k -> length m < 2 * k.
Proof.
  intros m b k H K. unfold quorum in H. destruct b; [lia|]. pose proof (Nat.div_mod (length m) 2 ltac:(lia)).
  pose proof (Nat.mod_upper_bound (length m) 2 ltac:(lia)). lia.
Qed.

Lemma sim_tallyVote : forall s n m p l from to cand g ft t mc o r, Inv s -> s_nd s n = absN m p -> p_cfg p = p_cfg (m_p m) ->
  msgOk s (Vote from to cand g ft t mc) -> tallyVote n m l from cand g ft t mc o = Some r -> simH s n p r.
Proof.
  intros s n m p l from to cand g ft t mc o r I E C (Rp & Lf & Vt) H.
  pose proof (le_mt s n m p I E) as L. unfold tallyVote in H.
  destruct (t <? p_term (m_p m)) eqn:T1; [injection H as <-; apply simH_same; auto|]. apply Nat.ltb_ge in T1.
  destruct (p_term (m_p m) <? t) eqn:T2.
  { apply Nat.ltb_lt in T2. assert (Sr : source s t mc) by (right; right; eauto).
    pose proof (bF_saved s n m p t mc I E T2 Sr) as B. destruct (becomeFollower m t (Some mc)) as (m1 & e1). injection H as <-. exact B. }
  apply Nat.ltb_ge in T2. assert (t = p_term (m_p m)) by lia. subst t. clear T1 T2.
  destruct (is_cand (m_role m)) eqn:R; [|injection H as <-; apply simH_same; auto].
  assert (Rc : m_role m = Candidate) by (destruct (m_role m); try discriminate; auto).
  destruct (has (c_mem (p_cfg (m_p m))) (fst from)) eqn:M; [|injection H as <-; apply simH_same; auto]. apply has_in in M.
  cbn [negb] in H.
  destruct (g && (versionGT mc (p_cfg (m_p m)) || (p_term (m_p m) <=? ft))) eqn:G; [injection H as <-; apply simH_same; auto|].
  cbv zeta in H. set (fresh := who_eqb cand (n, m_inc m) && o_known o && _) in H.
  set (vs := if fresh then _ else _) in H. set (m1 := mkM _ _ _ vs _ _ _ _ _ _ _) in H.
  assert (S1 : sim s n m1 p []).
  { unfold m1, vs. destruct fresh eqn:Fr; [|apply sim_same; auto].
    apply andb_true_iff in Fr. destruct Fr as (Fr & F2). apply andb_true_iff in Fr. destruct Fr as (F0 & F1).
    unfold who_eqb in F0. apply andb_true_iff in F0. destruct F0 as (Fa & Fb). apply Nat.eqb_eq in Fa, Fb.
    assert (cand = (n, m_inc m)) by (destruct cand; simpl in *; congruence). subst cand.
    destruct g.
    - pose proof (a_tally s n (fst from)) as A. rewrite E in A. simpl in A.
      eapply sim_one; [apply A| | |]; auto.
      + apply Vt; auto. simpl in G. apply orb_false_iff in G. destruct G as (_ & G). apply Nat.leb_gt in G. auto.
      + intros Hy. unfold yes in Hy. apply in_map_iff in Hy. destruct Hy as (y & Ey & Hy). apply filter_In in Hy. destruct Hy as (Hy & _).
        apply negb_true_iff in F2. rewrite <- not_true_iff_false in F2. apply F2. apply existsb_exists. exists y. split; auto. rewrite Ey. apply Nat.eqb_refl.
      + intros k N. simpl. apply upd_other; auto.
      + simpl. rewrite upd_same. unfold absN. simpl. rewrite Rc. reflexivity.
    - apply sim_same; auto. }
  destruct (quorum (c_mem (p_cfg (m_p m))) (o_nofault o) <=? S (count true vs)) eqn:Qc.
  - change (quorum (c_mem (p_cfg (m_p m))) (o_nofault o) <=? 1 + count true vs) with (quorum (c_mem (p_cfg (m_p m))) (o_nofault o) <=? S (count true vs)) in H.
    rewrite Qc in H. unfold simH. eapply sim_then; [auto|exact S1|]. intros s1 I1 G1 E1 C1.
    eapply sim_becomeLeader; eauto. left. split; auto. unfold m1. simpl p_cfg. cbn [m_p m_votes].
    rewrite <- yes_count. apply Nat.leb_le in Qc. eapply quorum_half; eauto. lia.
  - change (quorum (c_mem (p_cfg (m_p m))) (o_nofault o) <=? 1 + count true vs) with (quorum (c_mem (p_cfg (m_p m))) (o_nofault o) <=? S (count true vs)) in H.
    rewrite Qc in H. destruct (_ <=? count false vs).
    + unfold becomeFollower in H. rewrite Nat.ltb_irrefl in H. cbn [orb] in H. injection H as <-.
      unfold simH. eapply sim_then; [auto|exact S1|]. intros s1 I1 G1 E1 C1. cbn [fst snd after eff_disks fold_left d_p eff_msgs flat_map].
      change (d_p (mkD p [])) with p. quiet.
    + injection H as <-. exact S1.
Qed.

Lemma sim_ae : forall s n m p own from to t log mc o, Inv s -> s_nd s n = absN m p -> p_cfg p = p_cfg (m_p m) ->
  msgOk s (AppendEntries from to t log mc) -> simH s n p (handleAppendEntries n m own from t log mc o).
Proof.
  intros s n m p own from to t log mc o I E C (Ae & Rp).
  pose proof (le_mt s n m p I E) as L. unfold handleAppendEntries.
  destruct (t <? 1) eqn:T0; [apply simH_same; auto|].
  destruct (t <? p_term (m_p m)) eqn:T1.
  { unfold simH. cbn [fst snd]. change (after p [Send ?x]) with p. apply sim_report; auto.
    intros s' G R. constructor; [|constructor]. simpl. auto. }
  apply Nat.ltb_ge in T1. cbv zeta.
  set (nw := versionGT mc (p_cfg (m_p m))). set (p2 := if nw then _ else m_p m).
  set (up := p_term (m_p m) <? t). set (p3 := if up then _ else p2).
  set (m3 := mkM p3 _ _ _ _ _ _ _ _ _ _). set (k := if o_take o then length log else 0).
  unfold simH. cbn [fst snd].
  assert (W : forall q, after q (if o_take o then [Wal log] else []) = q) by (intros; destruct (o_take o); auto).
  rewrite !after_app, W, !eff_msgs_app.
  replace (eff_msgs (if nw then [SaveMC p2] else [])) with (@nil msg) by (destruct nw; auto).
  replace (eff_msgs (if up then [SaveTerm p3] else [])) with (@nil msg) by (destruct up; auto).
  replace (eff_msgs (if o_take o then [Wal log] else [])) with (@nil msg) by (destruct (o_take o); auto).
  cbn [eff_msgs flat_map app]. change (after ?q [Send ?x]) with q.
  set (pd := after (after p _) _).
  assert (Hp3 : p_cfg p3 = newer mc (p_cfg (m_p m))).
  { unfold p3, p2, newer. fold nw. destruct up, nw; auto. }
  assert (S1 : sim s n m3 pd []).
  { destruct up eqn:U.
    - assert (pd = p3) as -> by reflexivity. unfold up in U. apply Nat.ltb_lt in U.
      change p3 with (m_p m3).
      eapply (sim_raise s n m p t (Some mc)); eauto.
      intros c [= <-]. right. left. eauto.
    - unfold up in U. apply Nat.ltb_ge in U. assert (t = p_term (m_p m)) by lia. subst t.
      destruct nw eqn:V.
      + assert (pd = p2) as -> by reflexivity.
        pose proof (a_adopt s n from mc) as A. rewrite E in A. simpl in A.
        eapply sim_one; [apply A; auto| | |reflexivity].
        * intros x N. simpl. apply upd_other; auto.
        * simpl. rewrite upd_same. reflexivity.
      + assert (pd = p) as -> by reflexivity. quiet. }
  eapply sim_then; [auto|exact S1|]. intros s1 I1 G1 E1 C1.
  apply sim_report; auto.
Qed.

Lemma sim_ack : forall s n m p from to leader t k mc o, Inv s -> s_nd s n = absN m p -> p_cfg p = p_cfg (m_p m) ->
  msgOk s (Ack from to leader t k mc) -> simH s n p (handleAck n m from leader t k mc o).
Proof.
  intros s n m p from to leader t k mc o I E C Rp. simpl in Rp.
  pose proof (le_mt s n m p I E) as L. unfold handleAck.
  destruct (p_term (m_p m) <? t) eqn:T2.
  { apply Nat.ltb_lt in T2. assert (Sr : source s t mc) by (right; right; eauto).
    pose proof (bF_saved s n m p t mc I E T2 Sr) as B. destruct (becomeFollower m t (Some mc)) as (m1 & e1). exact B. }
  destruct (_ || _); [apply simH_same; auto|]. cbv zeta. unfold simH. cbn [fst snd]. change (after p []) with p. quiet.
Qed.

Lemma okc_nodup : forall s c, Inv s -> okc v0 founders (s_gk s) c -> NoDup (c_mem c).
Proof.
  intros s c I [(A & _ & _ & B)| ->]; [|constructor]. rewrite B. apply (i_nd _ _ _ I); auto.
Qed.

Lemma sim_change : forall s n m p live ch r, Inv s -> s_nd s n = absN m p -> p_cfg p = p_cfg (m_p m) ->
  changeMembership n m live ch = Some r ->
  (exists Q, majorityOf (c_mem (p_cfg (m_p m))) Q /\
     forall x, In x Q -> vouches (fst r) n (p_cfg (m_p m)) (p_term (m_p m)) x) ->
  simH s n p r.
Proof.
  intros s n m p live ch r I E C H (Q & Mj & V). unfold changeMembership in H.
  destruct (is_leader (m_role m)) eqn:R; [|discriminate].
  assert (Rl : m_role m = Leader) by (destruct (m_role m); try discriminate; auto).
  cbn [negb] in H. destruct (unreported n m live); [discriminate|].
  destruct (changed (c_mem (p_cfg (m_p m))) ch) as [new|] eqn:Ch; [|discriminate]. cbv zeta in H.
  destruct (quorumsOverlap (c_mem (p_cfg (m_p m))) new) eqn:Qo; [|rewrite orb_true_r in H; discriminate].
  destruct (_ || _); [discriminate|]. injection H as <-.
  assert (Nd : NoDup (c_mem (p_cfg (m_p m)))).
  { pose proof (i_cfg _ _ _ I n) as X. rewrite E in X. eapply okc_nodup; eauto. }
  assert (Nd' : NoDup new) by (eapply changed_nodup; eauto).
  assert (Mt : meets (c_mem (p_cfg (m_p m))) new) by (apply overlap_meets; auto).
  pose proof (a_change s n new Q) as A. rewrite E in A. cbn [absN a_role a_cfg a_mt a_seen a_inc a_votes] in A.
  unfold simH. cbn [fst snd]. eapply sim_one; [apply A; auto| | |]; auto.
  - intros x Hx. destruct (V x Hx) as [->|(c' & Hl & Hv)]; auto. right. exists c'. split; auto.
    cbn [fst m_seen] in Hl. apply lookup_in in Hl. auto.
  - intros k N. simpl. apply upd_other; auto.
  - simpl. rewrite upd_same. unfold absN. simpl. rewrite Rl. reflexivity.
Qed.

Lemma sim_stepDown : forall s n nd r, Inv s -> s_nd s n = absN (n_mem nd) (d_p (n_disk nd)) ->
  p_cfg (d_p (n_disk nd)) = p_cfg (m_p (n_mem nd)) ->
  stepDown nd = Some r -> simH s n (d_p (n_disk nd)) r.
Proof.
  intros s n nd r I E C H. unfold stepDown in H. destruct (is_leader (m_role (n_mem nd))); [|discriminate].
  unfold becomeFollower in H. rewrite Nat.ltb_irrefl in H. cbn [orb] in H. injection H as <-.
  pose proof (le_mt _ _ _ _ I E). unfold simH. cbn [fst snd app]. change (after ?q [SaveTerm ?x]) with x. cbn [eff_msgs flat_map app m_p].
  quiet.
Qed.

Lemma sim_beat : forall s n nd to r, Inv s -> s_nd s n = absN (n_mem nd) (d_p (n_disk nd)) ->
  p_cfg (d_p (n_disk nd)) = p_cfg (m_p (n_mem nd)) ->
  heartbeat n nd to = Some r -> simH s n (d_p (n_disk nd)) r.
Proof.
  intros s n nd to r I E C H. unfold heartbeat in H. destruct (is_leader (m_role (n_mem nd))) eqn:R; [|discriminate].
  assert (Rl : m_role (n_mem nd) = Leader) by (destruct (m_role (n_mem nd)); try discriminate; auto).
  destruct (_ && _); [|discriminate]. injection H as <-.
  unfold simH. cbn [fst snd]. change (after ?q [Send ?x]) with q. cbn [eff_msgs flat_map app].
  pose proof (a_beat s n) as B. rewrite E in B. specialize (B Rl). set (s2 := addAE _ _) in B.
  pose proof (a_report s2 n) as Rp. change (s_nd s2 n) with (s_nd s n) in Rp. rewrite E in Rp. set (s3 := addRep _ _) in Rp.
  exists s3. split; [econstructor; [apply asts_one; eauto|eauto]|]. split; auto. split; auto. split; auto.
  constructor; [|constructor]. simpl. auto.
Qed.

Lemma sim_pre : forall s n nd r, Inv s -> s_nd s n = absN (n_mem nd) (d_p (n_disk nd)) ->
  p_cfg (d_p (n_disk nd)) = p_cfg (m_p (n_mem nd)) ->
  beginPreVote n nd = Some r -> simH s n (d_p (n_disk nd)) r.
Proof.
  intros s n nd r I E C H. unfold beginPreVote in H. destruct (_ || _); [discriminate|].
  pose proof (le_mt _ _ _ _ I E) as L. destruct (_ <=? 1); injection H as <-; unfold simH; cbn [fst snd].
  - change (after ?q []) with q. cbn [eff_msgs flat_map]. quiet.
  - set (f := fun to => RequestPreVote (n, m_inc (n_mem nd)) to (S (p_term (m_p (n_mem nd)))) (length (d_log (n_disk nd))) (lastTerm (d_log (n_disk nd))) (p_cfg (m_p (n_mem nd)))).
    change (map (fun to => Send (RequestPreVote (n, m_inc (n_mem nd)) to (S (p_term (m_p (n_mem nd)))) (length (d_log (n_disk nd))) (lastTerm (d_log (n_disk nd))) (p_cfg (m_p (n_mem nd)))))
             (others n (c_mem (p_cfg (m_p (n_mem nd)))))) with (map (fun to => Send (f to)) (others n (c_mem (p_cfg (m_p (n_mem nd)))))).
    rewrite <- (map_map f Send), after_sends, msgs_sends.
    match goal with |- sim s n ?m' ?p' _ => assert (S1 : sim s n m' p' []) by quiet end.
    eapply sim_then; [auto|exact S1|]. intros s1 I1 G1 E1 C1.
    exists s1. split; [constructor|]. split; auto. split; auto. split; auto.
    apply Forall_forall. intros x Hx. apply in_map_iff in Hx. destruct Hx as (to & <- & _). simpl. auto.
Qed.

Lemma sim_handle : forall g s n ev r, Inv s -> Rel g s -> vouched g n ev ->
  handle (g_net g) n (g_node g n) ev = Some r -> simH s n (d_p (n_disk (g_node g n))) r.
Proof.
  intros g s n ev r I (Rn & Rm) V H. destruct (Rn n) as (E & C). set (nd := g_node g n) in *.
  destruct ev; simpl in H.
  - injection H as <-. apply simH_same; auto.
  - apply sim_pre; auto.
  - apply sim_elect; auto.
  - destruct (nth_error (g_net g) k) as [x|] eqn:N; [|discriminate]. apply nth_error_In in N. apply Rm in N.
    destruct (Nat.eqb_spec (msg_to x) n) as [T|]; [|discriminate].
    pose proof (sim_seenMsg s n _ _ x (o_known o) I E C N) as S1.
    unfold receive in H. destruct x; cbn [msg_to] in T.
    + injection H as <-. apply sim_preVoteReq; auto.
    + injection H as <-. eapply sim_then; [auto|exact S1|]. intros s1 I1 G1 E1 C1. apply sim_tallyPre; auto.
    + injection H as <-. eapply sim_requestVote; eauto.
    + eapply sim_then; [auto|exact S1|]. intros s1 I1 G1 E1 C1. eapply sim_tallyVote; eauto. eapply msgOk_grows; eauto.
    + injection H as <-. eapply sim_then; [auto|exact S1|]. intros s1 I1 G1 E1 C1. eapply sim_ae; eauto. eapply msgOk_grows; eauto.
    + injection H as <-. eapply sim_then; [auto|exact S1|]. intros s1 I1 G1 E1 C1. eapply sim_ack; eauto. eapply msgOk_grows; eauto.
  - destruct (nth_error (g_net g) k) as [x|] eqn:N; [|discriminate]. pose proof N as N'. apply nth_error_In in N'. apply Rm in N'.
    destruct (Nat.eqb_spec (msg_to x) n) as [T|NT]; [|discriminate].
    pose proof (sim_seenMsg s n _ _ x true I E C N') as S1.
    eapply sim_then; [auto|exact S1|]. intros s1 I1 G1 E1 C1. destruct r as (m' & effs).
    eapply sim_change; eauto. simpl.
    destruct (V m' effs Logic.I) as (Q & A & B).
    { simpl. fold nd. rewrite N, T, Nat.eqb_refl. auto. }
    unfold cfgOf, termOf in A, B. fold nd in A, B.
    assert (Hp : m_p (seenMsg x true (n_mem nd)) = m_p (n_mem nd)) by (unfold seenMsg; destruct (report x) as [((q & c) & t)|]; reflexivity).
    rewrite Hp. exists Q. auto.
  - destruct r as (m' & effs). eapply sim_change; eauto. destruct (V m' effs Logic.I H) as (Q & A & B). exists Q. auto.
  - eapply sim_beat; eauto.
  - apply sim_stepDown; auto.
  - unfold forget in H. injection H as <-. unfold simH. cbn [fst snd]. change (after ?q []) with q. cbn [eff_msgs flat_map].
    pose proof (le_mt _ _ _ _ I E). eapply sim_quiet; eauto. simpl. intros q c t Hs. left. eapply drop_in; eauto.
Qed.

(** Effects other than the first save no configuration. *)
Definition isSaveMC (e : effect) : bool := match e with SaveMC _ => true | _ => false end.
Definition tailOk (es : list effect) : Prop := forall k, k <> 0 -> existsb isSaveMC (skipn k es) = false.
Lemma tailOk_none : forall es, existsb isSaveMC es = false -> tailOk es.
Proof.
  intros es H k _. rewrite <- not_true_iff_false in *. intros X. apply H. apply existsb_exists in X. destruct X as (e & A & B).
  apply existsb_exists. exists e. split; auto. rewrite <- (firstn_skipn k es). apply in_or_app; auto.
Qed.
Lemma tailOk_cons : forall e es, existsb isSaveMC es = false -> tailOk (e :: es).
Proof.
  intros e es H k N. destruct k; [congruence|]. simpl. destruct k; [auto|]. apply tailOk_none; auto.
Qed.
Lemma none_sends : forall A (f : A -> msg) l, existsb isSaveMC (map (fun x => Send (f x)) l) = false.
Proof. induction l; simpl; auto. Qed.

Lemma bL_effs : forall n m l m' effs, becomeLeader n m l = Some (m', effs) -> existsb isSaveMC effs = false /\ m_inc m' = m_inc m.
Proof.
  intros n m l m' effs H. unfold becomeLeader in H.
  destruct (is_leader _); [discriminate|]. destruct (p_term _ <? _); [discriminate|].
  destruct (_ <? _); [|destruct (_ && _); [|discriminate]]; injection H as <- <-; split; auto;
    simpl; rewrite existsb_app; simpl; rewrite orb_false_r; apply none_sends.
Qed.
Lemma bF_effs : forall m t mc, let r := becomeFollower m t mc in
  m_inc (fst r) = m_inc m /\ (snd r = [] \/ exists p, snd r = [SaveMC p]).
Proof. intros m t mc. simpl. split; auto. destruct mc as [c|]; [destruct (versionGT c (p_cfg (m_p m)))|]; eauto. Qed.
Lemma bF_tail : forall m t mc es, existsb isSaveMC es = false -> tailOk (snd (becomeFollower m t mc) ++ es).
Proof.
  intros m t mc es H. destruct (bF_effs m t mc) as (_ & [E|(p & E)]); rewrite E; simpl.
  - apply tailOk_none; auto.
  - apply tailOk_cons; auto.
Qed.
Lemma seenMsg_inc : forall x b m, m_inc (seenMsg x b m) = m_inc m.
Proof. intros. unfold seenMsg. destruct (report x) as [((q & c) & t)|]; auto. destruct b; auto. Qed.

Lemma change_effs : forall n m live ch m' effs, changeMembership n m live ch = Some (m', effs) -> tailOk effs /\ m_inc m' = m_inc m.
Proof.
  intros n m live ch m' effs H. unfold changeMembership in H. destruct (negb _); [discriminate|].
  destruct (unreported _ _ _); [discriminate|]. destruct (changed _ _); [|discriminate]. cbv zeta in H.
  destruct (_ || _); [discriminate|]. injection H as <- <-. split; auto. apply tailOk_cons; auto.
Qed.

Lemma handle_effs : forall net n nd ev m' effs, handle net n nd ev = Some (m', effs) -> tailOk effs /\ m_inc m' = m_inc (n_mem nd).
Proof.
  intros net n nd ev m' effs H. destruct ev; simpl in H.
  - injection H as <- <-. split; auto. apply tailOk_none; auto.
  - unfold beginPreVote in H. destruct (_ || _); [discriminate|]. destruct (_ <=? 1); injection H as <- <-; split; auto; apply tailOk_none; auto.
    apply none_sends.
  - unfold beginElection in H. destruct (_ || _); [discriminate|]. destruct (negb _); [discriminate|]. destruct (_ =? 1).
    + apply bL_effs in H. destruct H as (A & B). split; [apply tailOk_none; auto|auto].
    + injection H as <- <-; split; auto; apply tailOk_none; auto. apply none_sends.
  - destruct (nth_error net k) as [x|]; [|discriminate]. destruct (_ =? n); [|discriminate].
    unfold receive in H. set (b := o_known o) in *. rewrite <- (seenMsg_inc x b (n_mem nd)).
    assert (Hm : m_inc (n_mem nd) = m_inc (seenMsg x b (n_mem nd))) by (symmetry; apply seenMsg_inc).
    set (m := seenMsg x b (n_mem nd)) in *. destruct x.
    + injection H as <- <-. split; auto. apply tailOk_none; auto.
    + unfold tallyPreVote in H. cbv zeta in H. destruct (_ || _); [injection H as <- <-|destruct (negb _); [injection H as <- <-|destruct (_ || _); [injection H as <- <-|]]];
        try (split; [apply tailOk_none; auto|auto]; fail).
      match type of H with context [if ?b then _ else if ?c then _ else _] => destruct b; [|destruct c] end; injection H as <- <-; (split; [apply tailOk_none; auto|auto]).
    + injection H as H. unfold handleRequestVote in H. rewrite <- Hm. cbv zeta in H.
      destruct (_ <? _); [injection H as <- <-; split; [apply tailOk_none; auto|auto]|].
      destruct (_ || _); [injection H as <- <-; split; [apply tailOk_none; auto|auto]|].
      destruct (_ <? _) eqn:T; cbn [negb andb] in H.
      * pose proof (bF_effs (n_mem nd) term (Some mc)) as (B1 & B2).
        pose proof (fun es => bF_tail (n_mem nd) term (Some mc) es) as B3.
        destruct (becomeFollower (n_mem nd) term (Some mc)) as (m1 & e1). cbn [fst snd] in *.
        destruct (logUpToDateAsOurs _ _ _ _ _ _); injection H as <- <-; (split; [apply B3; auto|auto]).
      * destruct (match p_vote _ with Some _ => _ | None => _ end); [injection H as <- <-; split; [apply tailOk_none; auto|auto]|].
        destruct (logUpToDateAsOurs _ _ _ _ _ _); injection H as <- <-; (split; [apply tailOk_none; auto|auto]).
    + unfold tallyVote in H. cbv zeta in H.
      destruct (_ <? _); [injection H as <- <-; split; [apply tailOk_none; auto|auto]|].
      destruct (_ <? _).
      { pose proof (bF_effs m term (Some mc)) as (B1 & B2).
        pose proof (fun es => bF_tail m term (Some mc) es) as B3.
        destruct (becomeFollower m term (Some mc)) as (m1 & e1). cbn [fst snd] in *. injection H as <- <-. split; [apply B3; auto|auto]. }
      destruct (negb _); [injection H as <- <-; split; [apply tailOk_none; auto|auto]|].
      destruct (negb _); [injection H as <- <-; split; [apply tailOk_none; auto|auto]|].
      destruct (_ && _); [injection H as <- <-; split; [apply tailOk_none; auto|auto]|].
      destruct (_ <=? _); [apply bL_effs in H; destruct H as (A & B); split; [apply tailOk_none; auto|auto]|].
      destruct (_ <=? _).
      * injection H as <- <-. split; [apply tailOk_none; auto|auto].
      * injection H as <- <-. split; [apply tailOk_none; auto|auto].
    + injection H as H. unfold handleAppendEntries in H. cbv zeta in H.
      destruct (_ <? _); [injection H as <- <-; split; [apply tailOk_none; auto|auto]|].
      destruct (_ <? _); [injection H as <- <-; split; [apply tailOk_none; auto|auto]|].
      injection H as <- <-. split; auto.
      destruct (versionGT _ _); cbn [app]; [apply tailOk_cons|apply tailOk_none]; destruct (_ <? _), (o_take o); reflexivity.
    + injection H as H. unfold handleAck in H. cbv zeta in H.
      destruct (_ <? _).
      { pose proof (bF_effs m term (Some mc)) as (B1 & B2).
        pose proof (fun es => bF_tail m term (Some mc) es) as B3.
        destruct (becomeFollower m term (Some mc)) as (m1 & e1). cbn [fst snd] in *. injection H as <- <-. split; [apply B3; auto|auto]. }
      destruct (_ || _); injection H as <- <-; (split; [apply tailOk_none; auto|auto]).
  - destruct (nth_error net k) as [x|]; [|discriminate]. destruct (_ =? n); [|discriminate].
    apply change_effs in H. rewrite seenMsg_inc in H. auto.
  - apply change_effs in H. auto.
  - unfold heartbeat in H. destruct (_ && _); [|discriminate]. injection H as <- <-. split; [apply tailOk_none; auto|auto].
  - unfold stepDown in H. destruct (is_leader _); [|discriminate].
    pose proof (bF_effs (n_mem nd) (p_term (m_p (n_mem nd))) None) as (B1 & B2).
    pose proof (fun es => bF_tail (n_mem nd) (p_term (m_p (n_mem nd))) None es) as B3.
    destruct (becomeFollower (n_mem nd) (p_term (m_p (n_mem nd))) None) as (m1 & e1). cbn [fst snd] in *. injection H as <- <-. split; [apply B3; auto|auto].
  - unfold forget in H. injection H as <- <-. split; [apply tailOk_none; auto|auto].
Qed.

Lemma after_quiet : forall es p, existsb isSaveMC es = false -> existsb isSaveTerm es = false -> after p es = p.
Proof.
  induction es as [|e es IH]; intros p A B; auto. simpl in A, B. apply orb_false_iff in A, B. destruct A as (A1 & A2), B as (B1 & B2).
  change (e :: es) with ([e] ++ es). rewrite after_app. rewrite IH by auto. destruct e; try discriminate; reflexivity.
Qed.

Theorem refine_step : forall g s n ev cut g', Inv s -> Rel g s -> guarded g n ev cut ->
  step g n ev cut = Some g' -> exists s', asts s s' /\ Rel g' s'.
Proof.
  intros g s n ev cut g' I Rl (Cr & Vo) H. unfold step in H.
  destruct (handle (g_net g) n (g_node g n) ev) as [(m' & effs)|] eqn:Hh; [|discriminate].
  pose proof (sim_handle g s n ev _ I Rl Vo Hh) as (s1 & A & B & C & D & F). cbn [fst snd] in *.
  pose proof (asts_grows _ _ A) as G. destruct Rl as (Rn & Rm). destruct (handle_effs _ _ _ _ _ _ Hh) as (Tl & Inc).
  destruct cut as [k|]; injection H as <-.
  - destruct (Cr m' effs Hh) as [E0|E0].
    + rewrite E0. exists (setN s n (let a := s_nd s n in mkA (a_dt a) (a_dt a) (a_cfg a) Follower (S (a_inc a)) [] [])).
      assert (X : ast s (setN s n (let a := s_nd s n in mkA (a_dt a) (a_dt a) (a_cfg a) Follower (S (a_inc a)) [] []))) by constructor.
      split; [apply asts_one; auto|]. split; simpl.
      * intros j. unfold upd. destruct (Nat.eqb_spec j n) as [->|N]; [|apply Rn].
        destruct (Rn n) as (E1 & E2). split; auto. simpl. rewrite E1. unfold absN. simpl. rewrite E2. reflexivity.
      * intros x Hx. rewrite app_nil_r in Hx. apply (msgOk_grows s); [apply ast_grows; auto|auto].
    + destruct (firstn k effs) as [|e0 r0] eqn:F0; [|rewrite <- F0].
      { exists (setN s n (let a := s_nd s n in mkA (a_dt a) (a_dt a) (a_cfg a) Follower (S (a_inc a)) [] [])).
        assert (X : ast s (setN s n (let a := s_nd s n in mkA (a_dt a) (a_dt a) (a_cfg a) Follower (S (a_inc a)) [] []))) by constructor.
        split; [apply asts_one; auto|]. split; simpl.
        * intros j. unfold upd. destruct (Nat.eqb_spec j n) as [->|N]; [|apply Rn].
          destruct (Rn n) as (E1 & E2). split; auto. simpl. rewrite E1. unfold absN. simpl. rewrite E2. reflexivity.
        * intros x Hx. rewrite app_nil_r in Hx. apply (msgOk_grows s); [apply ast_grows; auto|auto]. }
      assert (K0 : k <> 0) by (intros ->; discriminate).
      assert (Ea : after (d_p (n_disk (g_node g n))) (firstn k effs) = after (d_p (n_disk (g_node g n))) effs).
      { rewrite <- (firstn_skipn k effs) at 2. rewrite after_app. symmetry. apply after_quiet; auto. }
      set (s2 := setN s1 n (let a := s_nd s1 n in mkA (a_dt a) (a_dt a) (a_cfg a) Follower (S (a_inc a)) [] [])).
      assert (X : ast s1 s2) by constructor. pose proof (ast_grows _ _ X) as G2.
      exists s2. split; [eapply asts_step; eauto|]. split; simpl.
      * intros j. unfold upd. destruct (Nat.eqb_spec j n) as [->|N]; [|rewrite B by auto; apply Rn].
        cbn [restart n_mem n_disk m_p]. split; auto. rewrite after_spec, Ea, C. unfold absN. simpl. rewrite D, Inc. reflexivity.
      * intros x Hx. apply in_app_or in Hx. destruct Hx as [Hx|Hx].
        -- eapply msgOk_grows; [exact G2|]. eapply msgOk_grows; [exact G|]. auto.
        -- eapply msgOk_grows; [exact G2|]. rewrite Forall_forall in F. apply F.
           rewrite <- (firstn_skipn k effs). rewrite eff_msgs_app. apply in_or_app; auto.
  - exists s1. split; auto. split; simpl.
    + intros j. unfold upd. destruct (Nat.eqb_spec j n) as [->|N]; [|rewrite B by auto; apply Rn].
      simpl. rewrite after_spec. auto.
    + intros x Hx. apply in_app_or in Hx. destruct Hx as [Hx|Hx].
      * eapply msgOk_grows; [exact G|]. auto.
      * rewrite Forall_forall in F. auto.
Qed.

(** The start. *)
Definition s0 : astate :=
  mkS (fun k => let nd := node0 v0 founders k in absN (n_mem nd) (d_p (n_disk nd))) [] [] [] [] [] [[]] [].
Lemma rel0 : Rel (ginit v0 founders) s0.
Proof. split; simpl; [auto|intros x []]. Qed.

Lemma inv0 : NoDup founders -> Inv s0.
Proof.
  intros Nd.
  assert (Cf : forall k, let c := p_cfg (p0 v0 founders k) in c_term c = 0 /\ okc v0 founders [[]] c).
  { intros k. unfold p0. simpl. destruct (has founders k); simpl; split; auto.
    - left. simpl. auto.
    - right. auto. }
  constructor; simpl; try (intros; contradiction); auto.
  - intros k. destruct (Cf k) as (A & _). simpl in A. rewrite A. auto.
  - intros k. apply Cf.
  - intros k E. discriminate.
  - intros k E. discriminate.
  - intros k l [].
  - intros k q c t [].
  - intros p e [E|[]]. destruct p; discriminate.
  - intros p t l [E|[]]. destruct p; discriminate.
  - intros p m [E|[]]. destruct p; discriminate.
  - intros p m m' [E|[]]. destruct p; discriminate.
  - intros p [<- |[]]. auto.
Qed.

Theorem refine : forall g, NoDup founders -> reaches guarded (ginit v0 founders) g -> exists s, Inv s /\ Rel g s.
Proof.
  intros g Nd H. remember (ginit v0 founders) as g0. induction H as [g|g1 g2 g3 n ev cut H IH Hg Hs]; subst.
  - exists s0. split; [apply inv0; auto|apply rel0].
  - destruct (IH eq_refl) as (s & I & R). destruct (refine_step _ _ _ _ _ _ I R Hg Hs) as (s' & A & B).
    exists s'. split; auto. eapply inv_steps; eauto.
Qed.

(** A leader won its term's election. *)
Lemma led_won : forall g s p T, Inv s -> Rel g s -> hasLed g p T -> exists K Q, In (T, p, K, Q) (s_gw s).
Proof.
  intros g s p T I (Rn & Rm) [((R & E) & F)|(to & log & mc & H)].
  - destruct (Rn (fst p)) as (E1 & _). set (n := fst p) in *. unfold termOf in E.
    pose proof (i_lead _ _ _ I n) as L. rewrite E1 in L. destruct (L R) as (A & B & C & _). simpl in A, B, C.
    pose proof (i_cfg _ _ _ I n) as O. rewrite E1 in O. simpl in O.
    destruct (okc_pos _ _ _ _ O) as (D & _); [lia|].
    destruct (lastEl_known _ _ s I _ _ _ D C) as (K & Q & W). exists K, Q. rewrite <- E.
    replace p with (n, m_inc (n_mem (g_node g n))); auto. rewrite F. unfold n. destruct p; auto.
  - apply Rm in H. destruct H as (H & _). destruct (i_ae _ _ _ I _ _ _ H) as (_ & _ & K & Q & W). eauto.
Qed.

Theorem one_leader : forall g p q T, NoDup founders -> reaches guarded (ginit v0 founders) g ->
  hasLed g p T -> hasLed g q T -> p = q.
Proof.
  intros g p q T Nd H A B. destruct (refine g Nd H) as (s & I & R).
  destruct (led_won _ _ _ _ I R A) as (K & Q & W). destruct (led_won _ _ _ _ I R B) as (K' & Q' & W').
  eapply (inv_unique _ _ s I); eauto.
Qed.
End refine.
