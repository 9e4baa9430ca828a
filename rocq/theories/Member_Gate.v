(** What a leader has seen when it changes the members, and when it takes its noop0 for
    committed, in every schedule. *)
From Coq Require Import List Arith Bool Lia.
From Verif Require Import Base Member_Model Member_Spec.
Import ListNotations.

(** A leader's record of what a peer's log holds comes from an ack of that peer to this
    very leader in its term; and a candidate, or a leader that has not committed its
    noop0, is a member. *)
Definition matchOk (net : list msg) (n : nat) (m : mem) : Prop :=
  m_role m = Leader -> forall x k, In (x, k) (m_match m) -> 0 < k ->
  exists i j mc, k <= j /\ In (Ack (x, i) n (n, m_inc m) (p_term (m_p m)) j mc) net.
Definition memOk (n : nat) (m : mem) : Prop :=
  (m_role m = Candidate -> has (c_mem (p_cfg (m_p m))) n = true) /\
  (m_role m = Leader -> m_noopOk m = false -> has (c_mem (p_cfg (m_p m))) n = true) /\
  (m_role m = Leader -> 0 < m_noop m).
Definition distinct (m : mem) : Prop := NoDup (map fst (m_match m)).
Definition good (net : list msg) (n : nat) (m : mem) : Prop := matchOk net n m /\ memOk n m /\ distinct m.

Lemma drop_fst : forall {A} x (l : list (nat * A)), NoDup (map fst l) -> NoDup (map fst (drop x l)) /\ ~ In x (map fst (drop x l)).
Proof.
  intros A x l. unfold drop. induction l as [|[y a] l IH]; cbn; intros H; [split; [constructor|auto]|].
  inversion H as [|y' l' N H' E]; subst. destruct (IH H') as [I1 I2]. destruct (Nat.eqb_spec y x) as [->|NE]; cbn.
  - auto.
  - split.
    + constructor; [|exact I1]. intros K. apply N. apply in_map_iff in K. destruct K as (p & <- & K). apply filter_In in K. apply in_map, K.
    + intros [->|K]; [congruence|]. exact (I2 K).
Qed.

Lemma lookup_in : forall {A} x (l : list (nat * A)) a, lookup x l = Some a -> In (x, a) l.
Proof.
  intros A x l a. induction l as [|[y b] l IH]; cbn; [discriminate|]. destruct (Nat.eqb_spec y x) as [->|NE].
  - intros H. injection H as ->. auto.
  - auto.
Qed.

Lemma good_foll : forall net n m, m_role m = Follower -> distinct m -> good net n m.
Proof. intros net n m H D. split; [intros X; congruence|]. split; [split; [|split]; intros X; congruence|exact D]. Qed.

Lemma good_same : forall net n m m', good net n m -> m_role m' = m_role m -> m_match m' = m_match m -> m_inc m' = m_inc m ->
  p_term (m_p m') = p_term (m_p m) -> p_cfg (m_p m') = p_cfg (m_p m) -> m_noopOk m' = m_noopOk m -> m_noop m' = m_noop m -> good net n m'.
Proof.
  intros net n m m' (G1 & G2 & G3) A B C D E F X. unfold good, matchOk, memOk, distinct. rewrite A, B, C, D, E, F, X. auto.
Qed.

Lemma foll_follower : forall m t mc m1 e1, becomeFollower m t mc = (m1, e1) -> m_role m1 = Follower /\ m_match m1 = [].
Proof. intros m t mc m1 e1 H. unfold becomeFollower in H. injection H as <- _. auto. Qed.

Lemma good_follower : forall net n m t mc m1 e1, becomeFollower m t mc = (m1, e1) -> good net n m1.
Proof.
  intros. destruct (foll_follower _ _ _ _ _ H) as [A B]. apply good_foll; [exact A|]. unfold distinct. rewrite B. constructor.
Qed.

Lemma seen_same : forall net n m x c t, good net n m -> good net n (seen x c t m).
Proof. intros. eapply good_same; [exact H|reflexivity..]. Qed.
Lemma seenMsg_same : forall net n m x b, good net n m -> good net n (seenMsg x b m).
Proof.
  intros. unfold seenMsg. destruct (report x) as [[[q c] t]|]; [|exact H]. destruct b; [apply seen_same|]; exact H.
Qed.

Lemma good_lead : forall net n m l m1 e1, has (c_mem (p_cfg (m_p m))) n = true -> becomeLeader n m l = Some (m1, e1) -> good net n m1.
Proof.
  intros net n m l m1 e1 HM H. unfold becomeLeader in H.
  destruct (is_leader (m_role m)); [discriminate|]. destruct (_ <? _); [discriminate|].
  assert (forall t, let p' := mkP t (p_vote (m_p m)) (stamp t (n, m_inc m) (p_cfg (m_p m))) in
    good net n (mkM p' Leader (m_inc m) (m_votes m) 0 [] 0 (m_seen m) (length (l ++ [t])) [] (length (c_mem (p_cfg (m_p m))) =? 1))) as G.
  { intros t p'. split; [intros _ x k []|]. split; [|constructor]. split; [discriminate|]. split; [intros _ _; exact HM|]. intros _. cbn. rewrite app_length. cbn. lia. }
  destruct (_ <? _).
  - injection H as <- _. apply G.
  - destruct (_ && _); [|discriminate]. injection H as <- _. apply G.
Qed.

Lemma good_change : forall net n m live ch m1 e1, good net n m -> changeMembership n m live ch = Some (m1, e1) -> good net n m1.
Proof.
  intros net n m live ch m1 e1 (G1 & G2 & G3) H. unfold changeMembership in H.
  destruct (negb (is_leader (m_role m))) eqn:EL; [discriminate|]. destruct (unreported n m live); [discriminate|].
  destruct (changed _ ch) as [new|]; [|discriminate].
  destruct (m_noopOk m) eqn:EN; cbn [negb] in H; rewrite ?orb_true_r in H; cbn in H; [|discriminate].
  destruct (_ || _) in H; [discriminate|]. injection H as <- _.
  destruct (m_role m) eqn:ER; try discriminate EL.
  split; [|split].
  - intros _. cbn. intros x k K L. rewrite <- ER in *. apply (G1 ER x k K L).
  - split; [|split]; cbn; [discriminate|discriminate|]. intros _. apply G2. exact ER.
  - exact G3.
Qed.

Lemma good_ack : forall net n m from leader t k mc o m1 e1 k0, good net n m ->
  nth_error net k0 = Some (Ack from n leader t k mc) -> handleAck n m from leader t k mc o = (m1, e1) -> good net n m1.
Proof.
  intros net n m from leader t k mc o m1 e1 k0 G HN H. pose proof G as (G1 & G2 & G3). unfold handleAck in H.
  destruct (p_term (m_p m) <? t) eqn:E1.
  { destruct (becomeFollower m t (Some mc)) as [m2 e2] eqn:EF. injection H as <- _. eapply good_follower. exact EF. }
  destruct (t <? p_term (m_p m)) eqn:E2; cbn in H; [injection H as <- _; exact G|].
  destruct (is_leader (m_role m)) eqn:E3; cbn in H; [|injection H as <- _; exact G].
  destruct (who_eqb leader (n, m_inc m)) eqn:E4; cbn in H; [|injection H as <- _; exact G].
  injection H as <- _. apply Nat.ltb_ge in E1. apply Nat.ltb_ge in E2. assert (t = p_term (m_p m)) as -> by lia.
  assert (leader = (n, m_inc m)) as ->.
  { unfold who_eqb in E4. apply andb_true_iff in E4. destruct E4 as [A B]. apply Nat.eqb_eq in A. apply Nat.eqb_eq in B.
    destruct leader as [a b]. cbn in A, B. congruence. }
  destruct (m_role m) eqn:ER; try discriminate E3.
  apply nth_error_In in HN. destruct from as [x i]. cbn [fst] in *.
  split; [|split].
  - intros _. cbn. intros y j K L. destruct K as [K|K].
    + injection K as <- <-. destruct (Nat.max_spec (match lookup x (m_match m) with Some j => j | None => 0 end) k) as [[A ->]|[A EM]].
      * exists i, k, mc. auto.
      * rewrite EM in *. destruct (lookup x (m_match m)) as [j|] eqn:EL; [|lia]. apply lookup_in in EL.
        destruct (G1 ER x j EL L) as (i' & j' & mc' & B & C). exists i', j', mc'. auto.
    + unfold drop in K. apply filter_In in K. apply (G1 ER y j); [apply K|exact L].
  - split; [|split]; cbn; [discriminate| |intros _; apply G2; exact ER].
    intros _ K. apply orb_false_iff in K. apply G2; [exact ER|apply K].
  - unfold distinct. cbn. destruct (drop_fst x (m_match m) G3) as [A B]. constructor; assumption.
Qed.

Lemma handle_good : forall net n nd ev m1 e1, good net n (n_mem nd) -> handle net n nd ev = Some (m1, e1) -> good net n m1.
Proof.
  intros net n nd ev m1 e1 G H. pose proof G as (G1 & G2 & G3). destruct ev; cbn in H.
  - injection H as <- _. exact G.
  - unfold beginPreVote in H. destruct (_ || _); [discriminate|]. destruct (_ <=? _); injection H as <- _; apply good_foll; auto.
  - unfold beginElection in H. destruct (_ || _); [discriminate|]. destruct (negb (has _ _)) eqn:EM; [discriminate|].
    apply negb_false_iff in EM. destruct (_ =? 1).
    + eapply good_lead; [|exact H]. exact EM.
    + injection H as <- _. split; [intros X; discriminate X|]. split; [|constructor]. split; [intros _; exact EM|]. split; discriminate.
  - destruct (nth_error net k) as [x|] eqn:EN; [|discriminate]. destruct (msg_to x =? n) eqn:ET; [|discriminate].
    apply Nat.eqb_eq in ET. unfold receive in H. pose proof (seenMsg_same net n (n_mem nd) x (o_known o) G) as GS.
    set (ms := seenMsg x (o_known o) (n_mem nd)) in *. destruct x.
    + injection H as <- _. exact G.
    + injection H as H. unfold tallyPreVote in H.
      repeat match type of H with (if ?b then _ else _) = _ => destruct b end; injection H as <- _;
        (exact GS || (eapply good_same; [exact GS|reflexivity..])).
    + injection H as H. unfold handleRequestVote in H.
      destruct (_ <? _) in H; [injection H as <- _; exact G|].
      destruct (_ || _) in H; [injection H as <- _; exact G|].
      assert (forall m2 e2, (if p_term (m_p (n_mem nd)) <? term then becomeFollower (n_mem nd) term (Some mc) else (n_mem nd, [])) = (m2, e2) ->
        good net n m2) as GF.
      { intros m2 e2 X. destruct (_ <? _) in X; [eapply good_follower; exact X|]. injection X as <- _. exact G. }
      destruct (if p_term (m_p (n_mem nd)) <? term then becomeFollower (n_mem nd) term (Some mc) else (n_mem nd, [])) as [m2 e2] eqn:EF.
      specialize (GF m2 e2 eq_refl). destruct (_ && _) in H; [injection H as <- _; exact G|].
      destruct (logUpToDateAsOurs _ _ _ _ _ _) in H; injection H as <- _; [|exact GF].
      eapply good_same; [exact GF|reflexivity..].
    + unfold tallyVote in H.
      destruct (_ <? _) in H; [injection H as <- _; exact GS|].
      destruct (_ <? _) in H.
      { destruct (becomeFollower ms term (Some mc)) as [m2 e2] eqn:EF. injection H as <- _. eapply good_follower. exact EF. }
      destruct (negb (is_cand (m_role ms))) eqn:EC; [injection H as <- _; exact GS|].
      destruct (negb (has _ _)) in H; [injection H as <- _; exact GS|].
      destruct (_ && _) in H; [injection H as <- _; exact GS|].
      match type of H with context [becomeLeader n ?m' _] => set (m2 := m') in * end.
      assert (good net n m2) as GM by (eapply good_same; [exact GS|reflexivity..]).
      assert (m_role ms = Candidate) as RC by (destruct (m_role ms); try discriminate EC; reflexivity).
      destruct (_ <=? _) in H.
      * eapply good_lead; [|exact H]. destruct GM as (_ & (GM & _) & _). apply GM. exact RC.
      * destruct (_ <=? _) in H; [|injection H as <- _; exact GM].
        destruct (becomeFollower m2 _ None) as [m3 e3] eqn:EF. injection H as <- _. eapply good_follower. exact EF.
    + injection H as H. unfold handleAppendEntries in H.
      destruct (_ <? _) in H; [injection H as <- _; exact GS|].
      destruct (_ <? _) in H; [injection H as <- _; exact GS|].
      injection H as <- _. apply good_foll; [reflexivity|]. unfold distinct. cbn [m_match]. destruct (p_term (m_p ms) <? term); [constructor|apply GS].
    + injection H as H. cbn in ET. subst to. eapply good_ack; [exact GS|exact EN|exact H].
  - destruct (nth_error net k) as [x|] eqn:EN; [|discriminate]. destruct (msg_to x =? n) eqn:ET; [|discriminate].
    eapply good_change; [|exact H]. apply seenMsg_same. exact G.
  - eapply good_change; eassumption.
  - unfold heartbeat in H. destruct (_ && _); [|discriminate]. injection H as <- _. exact G.
  - unfold stepDown in H. destruct (is_leader _); [|discriminate].
    destruct (becomeFollower _ _ None) as [m2 e2] eqn:EF. injection H as <- _. eapply good_follower. exact EF.
  - unfold forget in H. injection H as <- _. eapply good_same; [exact G|reflexivity..].
Qed.

Lemma good_more : forall net net' n m, good net n m -> good (net ++ net') n m.
Proof.
  intros net net' n m (A & B). split; [|exact B]. intros R x k K L. destruct (A R x k K L) as (i & j & mc & C & D).
  exists i, j, mc. split; [exact C|]. apply in_app_iff. auto.
Qed.

Lemma reach_good : forall ok v founders g, reaches ok (ginit v founders) g -> forall n, good (g_net g) n (n_mem (g_node g n)).
Proof.
  intros ok v founders g H. remember (ginit v founders) as g0 eqn:E0. induction H as [g|g1 g2 g3 n ev cut H IH HO HS]; intros k.
  - subst g. apply good_foll; [reflexivity|constructor].
  - specialize (IH E0). unfold step in HS. destruct (handle (g_net g2) n (g_node g2 n) ev) as [[m effs]|] eqn:EH; [|discriminate].
    destruct cut as [c|]; injection HS as <-; cbn; unfold upd.
    + destruct (Nat.eqb_spec k n) as [->|NE]; [apply good_foll; [reflexivity|constructor]|]. apply good_more, IH.
    + destruct (Nat.eqb_spec k n) as [->|NE]; cbn; apply good_more; [|apply IH].
      eapply handle_good; [apply IH|exact EH].
Qed.

(** ** What the gates of changeMembership count *)

Lemma reported_majority : forall n m live ok, NoDup (c_mem (p_cfg (m_p m))) -> c_mem (p_cfg (m_p m)) <> [] ->
  majority (c_mem (p_cfg (m_p m))) <= selfCount n (p_cfg (m_p m)) + reported n m live ok ->
  exists Q, majorityOf (c_mem (p_cfg (m_p m))) Q /\
    forall x, In x Q -> x = n \/ exists r, lookup x (m_seen m) = Some r /\ ok r = true.
Proof.
  intros n m live ok N NE H. set (c := p_cfg (m_p m)) in *.
  set (R := filter (fun x => negb (x =? n) && has live x && match lookup x (m_seen m) with Some r => ok r | None => false end) (c_mem c)) in *.
  assert (reported n m live ok = length R) as ER by reflexivity. rewrite ER in H. clear ER.
  assert (majority (c_mem c) = length (c_mem c) / 2 + 1) as EM.
  { unfold majority. destruct (c_mem c); [congruence|reflexivity]. }
  pose proof (Nat.div_mod (length (c_mem c)) 2 ltac:(lia)) as D1. pose proof (Nat.mod_upper_bound (length (c_mem c)) 2 ltac:(lia)) as D2.
  assert (forall x, In x R -> x <> n /\ In x (c_mem c) /\ exists r, lookup x (m_seen m) = Some r /\ ok r = true) as IR.
  { intros x K. apply filter_In in K. destruct K as [K1 K2]. apply andb_true_iff in K2. destruct K2 as [K2 K3].
    apply andb_true_iff in K2. destruct K2 as [K2 _]. apply negb_true_iff, Nat.eqb_neq in K2.
    split; [exact K2|]. split; [exact K1|]. destruct (lookup x (m_seen m)) as [r|]; [|discriminate]. eauto. }
  assert (NoDup R) as NR by (apply NoDup_filter; exact N).
  unfold selfCount in H. destruct (has (c_mem c) n) eqn:EH.
  - exists (n :: R). split.
    + split; [constructor; [|exact NR]; intros K; destruct (IR n K) as [X _]; congruence|]. split.
      * intros x [<-|K]; [|apply IR, K]. apply existsb_exists in EH. destruct EH as (y & A & B). apply Nat.eqb_eq in B. congruence.
      * cbn [length]. lia.
    + intros x [<-|K]; [auto|]. right. apply IR, K.
  - exists R. split.
    + split; [exact NR|]. split; [intros x K; apply IR, K|lia].
    + intros x K. right. apply IR, K.
Qed.

Lemma gate : forall n m live ch m1 e1, NoDup (c_mem (p_cfg (m_p m))) -> changeMembership n m live ch = Some (m1, e1) ->
  m_role m = Leader /\ m_noopOk m = true /\ m_seen m1 = m_seen m /\
  (c_mem (p_cfg (m_p m)) <> [] ->
   (exists Q, majorityOf (c_mem (p_cfg (m_p m))) Q /\ forall x, In x Q ->
      x = n \/ exists c' t', lookup x (m_seen m) = Some (c', t') /\ versionEqual c' (p_cfg (m_p m)) = true) /\
   (exists Q, majorityOf (c_mem (p_cfg (m_p m))) Q /\ forall x, In x Q ->
      x = n \/ exists c', lookup x (m_seen m) = Some (c', p_term (m_p m)))).
Proof.
  intros n m live ch m1 e1 N H. unfold changeMembership in H.
  destruct (is_leader (m_role m)) eqn:EL; cbn [negb] in H; [|discriminate]. destruct (unreported n m live); [discriminate|].
  destruct (changed _ ch) as [new|]; [|discriminate]. cbv zeta in H.
  destruct (_ <? _) eqn:E1 in H; [discriminate|]. destruct (_ <? _) eqn:E2 in H; [discriminate|]. cbn [orb] in H.
  destruct (m_noopOk m) eqn:EN; cbn [negb orb] in H; [|discriminate]. destruct (negb _) in H; [discriminate|].
  injection H as <- _. apply Nat.ltb_ge in E1. apply Nat.ltb_ge in E2.
  split; [destruct (m_role m); try discriminate EL; reflexivity|]. split; [reflexivity|]. split; [reflexivity|]. intros NE. split.
  - destruct (reported_majority _ _ _ _ N NE E1) as (Q & A & B). exists Q. split; [exact A|]. intros x K.
    destruct (B x K) as [X|([c' t'] & X & Y)]; [auto|]. right. exists c', t'. auto.
  - destruct (reported_majority _ _ _ _ N NE E2) as (Q & A & B). exists Q. split; [exact A|]. intros x K.
    destruct (B x K) as [X|([c' t'] & X & Y)]; [auto|]. right. exists c'. cbn in Y. apply Nat.eqb_eq in Y. subst t'. exact X.
Qed.

(** ** noop0 *)

Lemma noop_majority : forall net n m nofault, good net n m -> m_role m = Leader -> m_noopOk m = false -> NoDup (c_mem (p_cfg (m_p m))) ->
  has (c_mem (p_cfg (m_p m))) n = true -> (forall k, 0 < k -> ~ In (n, k) (m_match m)) -> noopCommits m nofault = true ->
  exists Q, majorityOf (c_mem (p_cfg (m_p m))) Q /\ forall x, In x Q ->
    x = n \/ exists i j mc, m_noop m <= j /\ In (Ack (x, i) n (n, m_inc m) (p_term (m_p m)) j mc) net.
Proof.
  intros net n m nf (G1 & (_ & _ & G2) & G3) RL NO N HM NN H. unfold noopCommits in H. apply Nat.leb_le in H.
  set (c := p_cfg (m_p m)) in *. set (F := filter (fun x => has (c_mem c) (fst x) && (m_noop m <=? snd x)) (m_match m)) in *.
  specialize (G2 RL).
  assert (forall x k, In (x, k) F -> In (x, k) (m_match m) /\ In x (c_mem c) /\ m_noop m <= k) as IF.
  { intros x k K. apply filter_In in K. destruct K as [K1 K2]. apply andb_true_iff in K2. cbn in K2. destruct K2 as [K2 K3].
    apply existsb_exists in K2. destruct K2 as (y & A & B). apply Nat.eqb_eq in B. subst y. apply Nat.leb_le in K3. auto. }
  assert (NoDup (map fst F)) as NF.
  { unfold F, distinct in *. clear -G3. induction (m_match m) as [|[x k] l IH]; cbn; [constructor|].
    inversion G3 as [|x' l' A B C]; subst. specialize (IH B). destruct (_ && _); cbn; [|exact IH].
    constructor; [|exact IH]. intros K. apply A. apply in_map_iff in K. destruct K as (p & <- & K). apply filter_In in K. apply in_map, K. }
  exists (n :: map fst F). split.
  - split; [constructor; [|exact NF]|split].
    + intros K. apply in_map_iff in K. destruct K as ([x k] & E & K). cbn in E. subst x. destruct (IF n k K) as (X & _ & Y). exact (NN k ltac:(lia) X).
    + intros x [<-|K].
      * apply existsb_exists in HM. destruct HM as (y & A & B). apply Nat.eqb_eq in B. congruence.
      * apply in_map_iff in K. destruct K as ([y k] & <- & K). apply (IF y k K).
    + cbn [length]. rewrite map_length. unfold quorum in H.
      pose proof (Nat.div_mod (length (c_mem c)) 2 ltac:(lia)) as D1. pose proof (Nat.mod_upper_bound (length (c_mem c)) 2 ltac:(lia)) as D2.
      assert (0 < length (c_mem c)) as L0.
      { apply existsb_exists in HM. destruct HM as (y & A & _). destruct (c_mem c); [destruct A|cbn; lia]. }
      destruct nf; lia.
  - intros x [<-|K]; [auto|]. right. apply in_map_iff in K. destruct K as ([y k] & <- & K). cbn [fst].
    destruct (IF y k K) as (A & B & C). destruct (G1 RL y k A ltac:(lia)) as (i & j & mc & D & E).
    exists i, j, mc. split; [lia|exact E].
Qed.

(** nobody sends AppendEntries or acks to itself *)
Definition outward (x : msg) : Prop :=
  match x with AppendEntries f to _ _ _ => fst f <> to | Ack f to _ _ _ _ => fst f <> to | _ => True end.

Lemma others_ne : forall n m x, In x (others n m) -> n <> x.
Proof. intros n m x H. unfold others in H. apply filter_In in H. destruct H as [_ H]. apply negb_true_iff, Nat.eqb_neq in H. auto. Qed.

Lemma msgs_in : forall es x, In x (eff_msgs es) <-> In (Send x) es.
Proof.
  intros es x. unfold eff_msgs. rewrite in_flat_map. split.
  - intros (y & A & B). destruct y; cbn in B; try contradiction. destruct B as [->|[]]. exact A.
  - intros H. exists (Send x). split; [exact H|left; reflexivity].
Qed.

Lemma follower_quiet : forall m t mc m1 e1 x, becomeFollower m t mc = (m1, e1) -> ~ In (Send x) e1.
Proof.
  intros m t mc m1 e1 x H K. unfold becomeFollower in H. injection H as _ <-.
  destruct mc as [c|]; [|destruct K]. destruct (versionGT c (p_cfg (m_p m))); [|destruct K]. destruct K as [K|[]]; discriminate K.
Qed.

Lemma leader_outward : forall n m l m1 e1 x, becomeLeader n m l = Some (m1, e1) -> In (Send x) e1 -> outward x.
Proof.
  intros n m l m1 e1 x H K. unfold becomeLeader in H.
  destruct (is_leader (m_role m)); [discriminate|]. destruct (_ <? _); [discriminate|].
  assert (forall m' l' p' q, In (Send x) ([Wal l'] ++ map (fun to => Send (newAE n m' q to)) (others n (c_mem (p_cfg (m_p m)))) ++ [SaveTerm p']) -> outward x) as G.
  { intros m' l' p' q J. rewrite !in_app_iff in J. destruct J as [J|[J|J]].
    - destruct J as [J|[]]; discriminate J.
    - apply in_map_iff in J. destruct J as (y & E & J). injection E as <-. cbn. eapply others_ne. exact J.
    - destruct J as [J|[]]; discriminate J. }
  destruct (_ <? _).
  - injection H as _ <-. eapply G. exact K.
  - destruct (_ && _); [|discriminate]. injection H as _ <-. eapply G. exact K.
Qed.

Lemma handle_outward : forall net n nd ev m1 e1 x, (forall y, In y net -> outward y) -> handle net n nd ev = Some (m1, e1) ->
  In (Send x) e1 -> outward x.
Proof.
  intros net n nd ev m1 e1 x HN H K. destruct ev; cbn in H.
  - injection H as _ <-. destruct K.
  - unfold beginPreVote in H. destruct (_ || _); [discriminate|]. destruct (_ <=? _); injection H as _ <-; [destruct K|].
    apply in_map_iff in K. destruct K as (y & E & _). injection E as <-. exact I.
  - unfold beginElection in H. destruct (_ || _); [discriminate|]. destruct (negb (has _ _)); [discriminate|]. destruct (_ =? 1).
    + eapply leader_outward; eassumption.
    + injection H as _ <-. apply in_map_iff in K. destruct K as (y & E & _). injection E as <-. exact I.
  - destruct (nth_error net k) as [y|] eqn:EN; [|discriminate]. destruct (msg_to y =? n) eqn:ET; [|discriminate].
    apply Nat.eqb_eq in ET. apply nth_error_In in EN. specialize (HN y EN). unfold receive in H. destruct y.
    + injection H as _ <-. destruct K as [K|[]]. injection K as <-. exact I.
    + injection H as H. unfold tallyPreVote in H.
      repeat match type of H with (if ?b then _ else _) = _ => destruct b end; injection H as _ <-; destruct K.
    + injection H as H. unfold handleRequestVote in H.
      destruct (_ <? _) in H; [injection H as _ <-; destruct K as [K|[]]; injection K as <-; exact I|].
      destruct (_ || _) in H; [injection H as _ <-; destruct K as [K|[K|[]]]; [discriminate K|injection K as <-; exact I]|].
      destruct (if p_term (m_p (n_mem nd)) <? term then becomeFollower (n_mem nd) term (Some mc) else (n_mem nd, [])) as [m2 e2] eqn:EF.
      assert (~ In (Send x) e2) as Q.
      { destruct (_ <? _) in EF; [eapply follower_quiet; exact EF|]. injection EF as _ <-. intros []. }
      destruct (_ && _) in H; [injection H as _ <-; destruct K as [K|[]]; injection K as <-; exact I|].
      destruct (logUpToDateAsOurs _ _ _ _ _ _) in H; injection H as _ <-; apply in_app_iff in K;
        (destruct K as [K|[K|[K|[]]]]; [destruct (Q K)|discriminate K|injection K as <-; exact I]).
    + unfold tallyVote in H. set (ms := seenMsg _ _ _) in *.
      destruct (_ <? _) in H; [injection H as _ <-; destruct K|].
      destruct (_ <? _) in H.
      { destruct (becomeFollower ms term (Some mc)) as [m2 e2] eqn:EF. injection H as _ <-. apply in_app_iff in K.
        destruct K as [K|[K|[]]]; [destruct (follower_quiet _ _ _ _ _ _ EF K)|discriminate K]. }
      destruct (negb (is_cand (m_role ms))); [injection H as _ <-; destruct K|].
      destruct (negb (has _ _)) in H; [injection H as _ <-; destruct K|].
      destruct (_ && _) in H; [injection H as _ <-; destruct K|].
      destruct (_ <=? _) in H; [eapply leader_outward; eassumption|].
      destruct (_ <=? _) in H; [|injection H as _ <-; destruct K].
      match type of H with context [becomeFollower ?a ?b ?c] => destruct (becomeFollower a b c) as [m3 e3] eqn:EF end.
      injection H as _ <-. destruct (follower_quiet _ _ _ _ _ _ EF K).
    + injection H as H. unfold handleAppendEntries in H. set (ms := seenMsg _ _ _) in *. cbn in HN, ET. subst to.
      destruct (_ <? _) in H; [injection H as _ <-; destruct K|].
      destruct (_ <? _) in H; [injection H as _ <-; destruct K as [K|[]]; injection K as <-; cbn; congruence|].
      injection H as _ <-. repeat (apply in_app_iff in K; destruct K as [K|K]).
      * destruct (versionGT _ _) in K; [|destruct K]. destruct K as [K|[]]; discriminate K.
      * destruct (p_term (m_p ms) <? term) in K; [|destruct K]. destruct K as [K|[]]; discriminate K.
      * destruct (o_take o) in K; [|destruct K]. destruct K as [K|[]]; discriminate K.
      * destruct K as [K|[]]. injection K as <-. cbn. congruence.
    + injection H as H. unfold handleAck in H. destruct (_ <? _) in H.
      { match type of H with context [becomeFollower ?a ?b ?c] => destruct (becomeFollower a b c) as [m3 e3] eqn:EF end.
        injection H as _ <-. apply in_app_iff in K. destruct K as [K|[K|[]]]; [destruct (follower_quiet _ _ _ _ _ _ EF K)|discriminate K]. }
      destruct (_ || _) in H; injection H as _ <-; destruct K.
  - destruct (nth_error net k) as [y|]; [|discriminate]. destruct (_ =? n); [|discriminate].
    unfold changeMembership in H. repeat match type of H with (if ?b then _ else _) = _ => destruct b; try discriminate end.
    destruct (changed _ ch); [|discriminate]. cbv zeta in H. destruct (_ || _) in H; [discriminate|]. injection H as _ <-. destruct K as [K|[]]; discriminate K.
  - unfold changeMembership in H. repeat match type of H with (if ?b then _ else _) = _ => destruct b; try discriminate end.
    destruct (changed _ ch); [|discriminate]. cbv zeta in H. destruct (_ || _) in H; [discriminate|]. injection H as _ <-. destruct K as [K|[]]; discriminate K.
  - unfold heartbeat in H. destruct (is_leader _); [|discriminate]. destruct (Nat.eqb_spec to n) as [E|E]; [discriminate|].
    injection H as _ <-. destruct K as [K|[]]. injection K as <-. cbn. auto.
  - unfold stepDown in H. destruct (is_leader _); [|discriminate].
    destruct (becomeFollower _ _ None) as [m2 e2] eqn:EF. injection H as _ <-. apply in_app_iff in K.
    destruct K as [K|[K|[]]]; [destruct (follower_quiet _ _ _ _ _ _ EF K)|discriminate K].
  - unfold forget in H. injection H as _ <-. destruct K.
Qed.

Lemma reach_outward : forall ok v founders g, reaches ok (ginit v founders) g -> forall x, In x (g_net g) -> outward x.
Proof.
  intros ok v founders g H. remember (ginit v founders) as g0 eqn:E0. induction H as [g|g1 g2 g3 n ev cut H IH HO HS]; intros x K.
  - subst g. destruct K.
  - specialize (IH E0). unfold step in HS. destruct (handle (g_net g2) n (g_node g2 n) ev) as [[m effs]|] eqn:EH; [|discriminate].
    assert (forall es, incl es effs -> In x (g_net g2 ++ eff_msgs es) -> outward x) as G.
    { intros es HI J. apply in_app_iff in J. destruct J as [J|J]; [auto|]. apply msgs_in in J. eapply handle_outward; [exact IH|exact EH|auto]. }
    destruct cut as [c|]; injection HS as <-; cbn in K.
    + apply (G (firstn c effs)); [|exact K]. intros y Hy. rewrite <- (firstn_skipn c effs). apply in_app_iff. auto.
    + apply (G effs); [apply incl_refl|exact K].
Qed.

(** Only an ack makes a leader take its noop0 for committed. *)
Lemma noop_turn : forall net n nd ev m1 e1, handle net n nd ev = Some (m1, e1) -> m_role (n_mem nd) = Leader -> m_role m1 = Leader ->
  m_noopOk (n_mem nd) = false -> m_noopOk m1 = true ->
  exists k o, ev = NRecv k o /\ exists nf m2, m_noopOk m2 = false /\ noopCommits m2 nf = true /\
    m_role m2 = Leader /\ m_p m2 = m_p (n_mem nd) /\ m_inc m2 = m_inc (n_mem nd) /\ m_noop m2 = m_noop (n_mem nd) /\ m_match m2 = m_match m1 /\
    m_p m1 = m_p m2 /\ m_inc m1 = m_inc m2 /\ m_noop m1 = m_noop m2.
Proof.
  intros net n nd ev m1 e1 H R R1 O O1.
  assert (forall m live ch, m_noopOk m = false -> changeMembership n m live ch = Some (m1, e1) -> False) as CH.
  { intros m live ch X Y. unfold changeMembership in Y. repeat match type of Y with (if ?b then _ else _) = _ => destruct b; try discriminate end.
    destruct (changed _ ch); [|discriminate]. cbv zeta in Y. destruct (_ || _) in Y; [discriminate|]. injection Y as <- _. cbn in O1. congruence. }
  destruct ev; cbn in H.
  - injection H as <- _. congruence.
  - unfold beginPreVote in H. rewrite R in H. cbn in H. rewrite orb_true_r in H. discriminate.
  - unfold beginElection in H. rewrite R in H. discriminate.
  - destruct (nth_error net k) as [x|]; [|discriminate]. destruct (msg_to x =? n); [|discriminate].
    unfold receive in H. set (ms := seenMsg x (o_known o) (n_mem nd)) in *.
    assert (m_role ms = Leader /\ m_noopOk ms = false /\ m_p ms = m_p (n_mem nd) /\ m_inc ms = m_inc (n_mem nd) /\ m_noop ms = m_noop (n_mem nd)) as (A1 & A2 & A3 & A4 & A5).
    { unfold ms, seenMsg. destruct (report x) as [[[q c] t]|]; [destruct (o_known o)|]; cbn; auto. }
    clearbody ms. destruct x.
    + injection H as <- _. congruence.
    + injection H as H. unfold tallyPreVote in H. rewrite A1 in H. cbn in H. rewrite orb_true_r in H. injection H as <- _. congruence.
    + injection H as H. unfold handleRequestVote in H. rewrite R in H. cbn [is_leader orb negb] in H.
      destruct (_ <? _) in H; injection H as <- _; congruence.
    + unfold tallyVote in H. rewrite A1 in H. cbn [is_cand negb] in H. destruct (_ <? _) in H; [injection H as <- _; congruence|].
      destruct (_ <? _) in H; [|injection H as <- _; congruence].
      match type of H with context [becomeFollower ?a ?b ?c] => destruct (becomeFollower a b c) as [m3 e3] eqn:EF end.
      injection H as <- _. apply foll_follower in EF. destruct EF. congruence.
    + injection H as H. unfold handleAppendEntries in H. destruct (_ <? _) in H; [injection H as <- _; congruence|].
      destruct (_ <? _) in H; [injection H as <- _; congruence|]. injection H as <- _. discriminate R1.
    + injection H as H. unfold handleAck in H. destruct (_ <? _) in H.
      { match type of H with context [becomeFollower ?a ?b ?c] => destruct (becomeFollower a b c) as [m3 e3] eqn:EF end.
        injection H as <- _. apply foll_follower in EF. destruct EF. congruence. }
      destruct (_ || _) in H; [injection H as <- _; congruence|]. injection H as <- _. cbn in O1. rewrite A2 in O1. cbn in O1.
      exists k, o. split; [reflexivity|]. exists (o_nofault o).
      match type of O1 with noopCommits ?m2 _ = true => exists m2 end. cbn.
      repeat (split; [assumption|]). auto 12.
  - destruct (nth_error net k) as [x|]; [|discriminate]. destruct (msg_to x =? n); [|discriminate]. exfalso. eapply CH; [|exact H].
    unfold seenMsg. destruct (report x) as [[[q c] t]|]; exact O.
  - exfalso. eapply CH; [|exact H]. exact O.
  - unfold heartbeat in H. destruct (_ && _); [|discriminate]. injection H as <- _. congruence.
  - unfold stepDown in H. rewrite R in H. cbn [is_leader] in H.
    destruct (becomeFollower _ _ None) as [m2 e2] eqn:EF. injection H as <- _. apply foll_follower in EF. destruct EF. congruence.
  - unfold forget in H. injection H as <- _. cbn in O1. congruence.
Qed.
