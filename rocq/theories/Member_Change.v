(** Members stay distinct in every configuration, whatever the schedule; and a
    configuration that a change was built on stays in the history of later leaders. *)
From Coq Require Import List Arith Bool Lia.
From Verif Require Import Base Member_Model Member_Spec Member_Tree Member_Abs Member_Inv Member_Overlap Member_Refine.
Import ListNotations.

Definition mcOf (x : msg) : conf :=
  match x with
  | RequestPreVote _ _ _ _ _ mc => mc | PreVote _ _ _ _ _ _ mc => mc | RequestVote _ _ _ _ _ mc => mc
  | Vote _ _ _ _ _ _ mc => mc | AppendEntries _ _ _ _ mc => mc | Ack _ _ _ _ _ mc => mc
  end.
Definition nd (c : conf) : Prop := NoDup (c_mem c).
Definition effNd (e : effect) : Prop :=
  match e with SaveMC p | SaveTerm p => nd (p_cfg p) | Wal _ => True | Send x => nd (mcOf x) end.

Definition memNd (r : mem * list effect) : Prop := nd (p_cfg (m_p (fst r))) /\ Forall effNd (snd r).

Lemma sends_nd : forall (f : nat -> msg) l, (forall x, nd (mcOf (f x))) -> Forall effNd (map (fun x => Send (f x)) l).
Proof. intros f l H. induction l; simpl; constructor; auto. simpl. auto. Qed.

Lemma bF_nd : forall m t mc, nd (p_cfg (m_p m)) -> (forall c, mc = Some c -> nd c) -> memNd (becomeFollower m t mc).
Proof.
  intros m t mc A B. unfold becomeFollower, memNd. cbn [fst snd m_p]. destruct mc as [c|].
  - destruct (versionGT c (p_cfg (m_p m))); simpl; rewrite ?orb_true_r; simpl.
    + split; auto. constructor; auto. simpl. auto.
    + destruct (_ || _); simpl; auto.
  - simpl. destruct (_ || _); simpl; auto.
Qed.
Lemma bL_nd : forall n m l r, nd (p_cfg (m_p m)) -> becomeLeader n m l = Some r -> memNd r.
Proof.
  intros n m l r A H. unfold becomeLeader in H. destruct (is_leader _); [discriminate|]. destruct (p_term _ <? _); [discriminate|].
  destruct (_ <? _); [|destruct (_ && _); [|discriminate]]; injection H as <-; (split; [exact A|]); simpl; (constructor; [exact Logic.I|]);
    (apply Forall_app; split; [apply sends_nd; intros; exact A|constructor; [exact A|constructor]]).
Qed.
Lemma change_nd : forall n m live ch r, nd (p_cfg (m_p m)) -> changeMembership n m live ch = Some r -> memNd r.
Proof.
  intros n m live ch r A H. unfold changeMembership in H. destruct (negb _); [discriminate|]. destruct (unreported _ _ _); [discriminate|].
  destruct (changed _ _) as [new|] eqn:C; [|discriminate]. cbv zeta in H. destruct (_ || _); [discriminate|].
  apply changed_nodup in C; auto. injection H as <-. split; [exact C|]. constructor; [exact C|constructor].
Qed.
Lemma seenMsg_p : forall x b m, m_p (seenMsg x b m) = m_p m.
Proof. intros. unfold seenMsg. destruct (report x) as [((q & c) & t)|]; auto. destruct b; auto. Qed.

Lemma handle_nd : forall net n nod ev r, nd (p_cfg (m_p (n_mem nod))) -> (forall x, In x net -> nd (mcOf x)) ->
  handle net n nod ev = Some r -> memNd r.
Proof.
  intros net n nod ev r A B H. destruct ev; simpl in H.
  - injection H as <-. split; auto. constructor.
  - unfold beginPreVote in H. destruct (_ || _); [discriminate|]. destruct (_ <=? 1); injection H as <-; split; auto; simpl; auto.
    apply sends_nd. intros; exact A.
  - unfold beginElection in H. destruct (_ || _); [discriminate|]. destruct (negb _); [discriminate|]. destruct (_ =? 1).
    + eapply bL_nd; [|exact H]. auto.
    + injection H as <-. split; auto. simpl. apply sends_nd. intros; exact A.
  - destruct (nth_error net k) as [x|] eqn:N; [|discriminate]. apply nth_error_In, B in N. destruct (_ =? n); [|discriminate].
    unfold receive in H. set (b := o_known o) in *. pose proof (seenMsg_p x b (n_mem nod)) as P.
    set (m := seenMsg x b (n_mem nod)) in *. assert (A' : nd (p_cfg (m_p m))) by (rewrite P; auto). destruct x; simpl in N.
    + injection H as <-. split; auto. constructor; auto. 
    + injection H as <-. unfold tallyPreVote. cbv zeta. destruct (_ || _); [split; auto; constructor|].
      destruct (negb _); [split; auto; constructor|]. destruct (_ || _); [split; auto; constructor|].
      match goal with |- context [if ?b then _ else if ?c then _ else _] => destruct b; [|destruct c] end; split; auto; constructor.
    + injection H as <-. unfold handleRequestVote. cbv zeta. destruct (_ <? _); [split; auto; repeat constructor; auto|].
      destruct (_ || _); [split; auto; repeat constructor; auto|].
      destruct (_ <? _); cbn [negb andb].
      * pose proof (bF_nd (n_mem nod) term (Some mc) A) as F. destruct (becomeFollower (n_mem nod) term (Some mc)) as (m1 & e1).
        destruct F as (F1 & F2); [intros c [= <-]; auto|]. cbn [fst snd] in *.
        destruct (logUpToDateAsOurs _ _ _ _ _ _); split; auto; cbn [snd]; apply Forall_app; split; auto; repeat constructor; auto.
      * destruct (match p_vote _ with Some _ => _ | None => _ end); [split; auto; repeat constructor; auto|].
        destruct (logUpToDateAsOurs _ _ _ _ _ _); split; auto; cbn [snd app]; repeat constructor; auto.
    + unfold tallyVote in H. cbv zeta in H. destruct (_ <? _); [injection H as <-; split; auto; constructor|].
      destruct (_ <? _).
      { pose proof (bF_nd m term (Some mc) A') as F. destruct (becomeFollower m term (Some mc)) as (m1 & e1).
        destruct F as (F1 & F2); [intros c [= <-]; auto|]. cbn [fst snd] in *. injection H as <-. split; auto. cbn [snd]. apply Forall_app; split; auto. }
      destruct (negb _); [injection H as <-; split; auto; constructor|].
      destruct (negb _); [injection H as <-; split; auto; constructor|].
      destruct (_ && _); [injection H as <-; split; auto; constructor|].
      destruct (_ <=? _); [eapply bL_nd; [|exact H]; auto|].
      destruct (_ <=? _); [|injection H as <-; split; auto; constructor].
      injection H as <-. split; simpl; auto. destruct (_ || _); auto.
    + injection H as <-. unfold handleAppendEntries. cbv zeta. destruct (_ <? _); [split; auto; constructor|].
      destruct (_ <? _); [split; auto; repeat constructor; auto|].
      destruct (versionGT mc (p_cfg (m_p m))), (_ <? _), (o_take o); split; simpl; auto; repeat constructor; simpl; auto.
    + injection H as <-. unfold handleAck. cbv zeta. destruct (_ <? _).
      { pose proof (bF_nd m term (Some mc) A') as F. destruct (becomeFollower m term (Some mc)) as (m1 & e1).
        destruct F as (F1 & F2); [intros c [= <-]; auto|]. cbn [fst snd] in *. split; auto. cbn [snd]. apply Forall_app; split; auto. }
      destruct (_ || _); split; auto; constructor.
  - destruct (nth_error net k) as [x|]; [|discriminate]. destruct (_ =? n); [|discriminate].
    eapply change_nd; [|exact H]. rewrite seenMsg_p. auto.
  - eapply change_nd; eauto.
  - unfold heartbeat in H. destruct (_ && _); [|discriminate]. injection H as <-. split; auto. repeat constructor; auto.
  - unfold stepDown in H. destruct (is_leader _); [|discriminate].
    pose proof (bF_nd (n_mem nod) (p_term (m_p (n_mem nod))) None A) as F.
    destruct (becomeFollower (n_mem nod) (p_term (m_p (n_mem nod))) None) as (m1 & e1).
    destruct F as (F1 & F2); [intros c; discriminate|]. cbn [fst snd] in *. injection H as <-. split; auto. cbn [snd]. apply Forall_app; split; auto.
  - injection H as <-. split; auto. constructor.
Qed.

Definition allNd (g : gstate) : Prop :=
  (forall k, nd (p_cfg (m_p (n_mem (g_node g k)))) /\ nd (p_cfg (d_p (n_disk (g_node g k))))) /\
  forall x, In x (g_net g) -> nd (mcOf x).

Lemma disks_nd : forall es d, nd (p_cfg (d_p d)) -> Forall effNd es -> nd (p_cfg (d_p (eff_disks d es))).
Proof.
  induction es as [|e es IH]; intros d A F; simpl; auto. inversion F; subst. apply IH; auto. destruct e; auto.
Qed.
Lemma msgs_nd : forall es x, Forall effNd es -> In x (eff_msgs es) -> nd (mcOf x).
Proof.
  intros es x F H. unfold eff_msgs in H. apply in_flat_map in H. destruct H as (e & A & B).
  rewrite Forall_forall in F. specialize (F e A). destruct e; simpl in B; try contradiction. destruct B as [<- |[]]. auto.
Qed.
Lemma firstn_Forall : forall A (P : A -> Prop) k l, Forall P l -> Forall P (firstn k l).
Proof. intros A P k l H. rewrite <- (firstn_skipn k l) in H. apply Forall_app in H. tauto. Qed.

Lemma step_nd : forall g n ev cut g', allNd g -> step g n ev cut = Some g' -> allNd g'.
Proof.
  intros g n ev cut g' (A & B) H. unfold step in H.
  destruct (handle (g_net g) n (g_node g n) ev) as [(m' & effs)|] eqn:E; [|discriminate].
  destruct (handle_nd _ _ _ _ _ (proj1 (A n)) B E) as (C & D). cbn [fst snd] in *.
  destruct cut as [k|]; injection H as <-.
  - pose proof (firstn_Forall _ _ k _ D) as D'. split; simpl.
    + intros j. unfold upd. destruct (j =? n); [|apply A]. simpl. split; apply disks_nd; auto; apply A.
    + intros x Hx. apply in_app_or in Hx. destruct Hx as [Hx|Hx]; auto. eapply msgs_nd; [|exact Hx]; auto.
  - split; simpl.
    + intros j. unfold upd. destruct (j =? n); [|apply A]. simpl. split; auto. apply disks_nd; auto; apply A.
    + intros x Hx. apply in_app_or in Hx. destruct Hx as [Hx|Hx]; auto. eapply msgs_nd; [|exact Hx]; auto.
Qed.

Theorem reach_nd : forall ok v founders g, NoDup founders -> reaches ok (ginit v founders) g -> allNd g.
Proof.
  intros ok v founders g N H. remember (ginit v founders) as g0. induction H as [g|g1 g2 g3 n ev cut H IH Hg Hs]; subst.
  - split; simpl; [|intros x []]. intros k. unfold p0. destruct (has founders k); unfold nd; simpl; split; auto; constructor.
  - eapply step_nd; eauto.
Qed.

(** What a change does to the configuration. *)
Lemma change_shape : forall n m live ch m' effs, changeMembership n m live ch = Some (m', effs) ->
  exists new, changed (c_mem (p_cfg (m_p m))) ch = Some new /\ c_mem (p_cfg (m_p m')) = new /\
    c_hist (p_cfg (m_p m')) = c_hist (p_cfg (m_p m)) ++ [Rc new] /\ quorumsOverlap (c_mem (p_cfg (m_p m))) new = true.
Proof.
  intros n m live ch m' effs H. unfold changeMembership in H. destruct (negb _); [discriminate|]. destruct (unreported _ _ _); [discriminate|].
  destruct (changed _ _) as [new|] eqn:C; [|discriminate]. cbv zeta in H.
  destruct (quorumsOverlap (c_mem (p_cfg (m_p m))) new) eqn:Q; [|rewrite orb_true_r in H; discriminate].
  destruct (_ || _); [discriminate|]. injection H as <- <-. exists new. auto.
Qed.
Lemma handle_change : forall net n nod ev m' effs, isChange ev -> handle net n nod ev = Some (m', effs) ->
  exists m live ch, m_p m = m_p (n_mem nod) /\ changeMembership n m live ch = Some (m', effs).
Proof.
  intros net n nod ev m' effs C H. destruct ev; try contradiction; simpl in H.
  - destruct (nth_error net k) as [x|]; [|discriminate]. destruct (_ =? n); [|discriminate].
    eexists _, _, _. split; [|exact H]. apply seenMsg_p.
  - eexists _, _, _. split; [|exact H]. reflexivity.
Qed.

(** Kept histories. *)
Section kept.
Variable v0 : nat.
Variable founders : list nat.
Notation Inv := (Inv v0 founders).

Lemma asts_gc : forall s s', asts s s' -> incl (s_gc s) (s_gc s') /\ incl (s_gk s) (s_gk s').
Proof.
  intros s s' H. induction H as [|s1 s2 A IH B]; [split; apply incl_refl|].
  destruct IH as (I1 & I2). destruct B; simpl; split; auto; try (apply incl_tl; auto).
Qed.

(** A configuration made by [Rc] has its parent among those changes were built on. *)
Lemma rc_parent : forall s, Inv s -> forall p m, In (p ++ [Rc m]) (s_gk s) -> exists Q, In (p, Q) (s_gc s).
Proof. intros s I p m H. apply (i_rc _ _ _ I _ _ H). Qed.

Lemma leader_prefix : forall g s n T p Q, Inv s -> Rel g s -> isLeaderAt g n T -> In (p, Q) (s_gc s) -> tm p < T ->
  exists rest, c_hist (cfgOf g n) = p ++ rest.
Proof.
  intros g s n T p Q I (Rn & Rm) (Rl & E) G L. unfold termOf in E. destruct (Rn n) as (E1 & _).
  pose proof (i_lead _ _ _ I n) as Ld. rewrite E1 in Ld. destruct (Ld Rl) as (A & B & C & _). simpl in A, B, C.
  pose proof (i_cfg _ _ _ I n) as O. rewrite E1 in O. simpl in O. destruct (okc_pos _ _ _ _ O) as (D & _); [lia|].
  unfold cfgOf. set (h := c_hist (p_cfg (m_p (n_mem (g_node g n))))) in *.
  pose proof (lastEl_split h) as Sp. rewrite C in Sp. destruct Sp as (k & rs & Eh & _). rewrite Eh in D |- *.
  assert (Kn : In (k ++ [El (p_term (m_p (n_mem (g_node g n)))) (n, m_inc (n_mem (g_node g n)))]) (s_gk s)).
  { apply (known_app v0 founders (known s) (Win s) (Com s) (inv_tree v0 founders s I) rs). unfold known.
    rewrite <- app_assoc. exact D. }
  destruct (i_el _ _ _ I _ _ _ Kn) as (K & Q' & W & Ek).
  destruct (tree_committed v0 founders (known s) (Win s) (Com s) (inv_tree v0 founders s I) T p Q (n, m_inc (n_mem (g_node g n))) k Q') as (t & Et); auto.
  - exists K. rewrite <- E. auto.
  - exists (t ++ El (p_term (m_p (n_mem (g_node g n)))) (n, m_inc (n_mem (g_node g n))) :: rs). rewrite Et, <- app_assoc. reflexivity.
Qed.

Lemma refine_from : forall g s g', Inv s -> Rel g s -> reaches guarded g g' -> exists s', asts s s' /\ Inv s' /\ Rel g' s'.
Proof.
  intros g s g' I R H. revert I R. induction H as [g|g1 g2 g3 n ev cut H IH Hg Hs]; intros I R.
  - exists s. split; [constructor|auto].
  - destruct (IH I R) as (s1 & A & I1 & R1). destruct (refine_step v0 founders _ _ _ _ _ _ I1 R1 Hg Hs) as (s2 & A' & R2).
    exists s2. split; [eapply asts_trans; eauto|]. split; auto. eapply inv_steps; eauto.
Qed.

Theorem kept : forall g n ev g1 g2 p T, NoDup founders -> reaches guarded (ginit v0 founders) g ->
  guarded g n ev None -> isChange ev -> step g n ev None = Some g1 -> reaches guarded g1 g2 ->
  isLeaderAt g2 p T -> c_term (cfgOf g n) < T ->
  exists rest, c_hist (cfgOf g2 p) = c_hist (cfgOf g n) ++ rest.
Proof.
  intros g n ev g1 g2 p T Nd H G C St H2 Ld L.
  destruct (refine v0 founders g Nd H) as (s & I & R).
  destruct (refine_step v0 founders _ _ _ _ _ _ I R G St) as (s1 & A1 & R1). pose proof (inv_steps v0 founders _ _ A1 I) as I1.
  destruct (refine_from g1 s1 g2 I1 R1 H2) as (s2 & A2 & I2 & R2).
  unfold step in St. destruct (handle (g_net g) n (g_node g n) ev) as [(m' & effs)|] eqn:Hh; [|discriminate]. injection St as <-.
  destruct (handle_change _ _ _ _ _ _ C Hh) as (m & live & ch & Ep & Hc). destruct (change_shape _ _ _ _ _ _ Hc) as (new & _ & _ & Eh & _).
  rewrite Ep in Eh. fold (cfgOf g n) in Eh.
  destruct R1 as (R1n & R1m). destruct (R1n n) as (E1 & _). simpl in E1. rewrite upd_same in E1. cbn [n_mem n_disk] in E1.
  (* the new configuration is known *)
  assert (Ok : okc v0 founders (s_gk s1) (p_cfg (m_p m'))) by (pose proof (i_cfg _ _ _ I1 n) as X; rewrite E1 in X; exact X).
  destruct Ok as [(K & Kt & _)|K]; [|rewrite K in Eh; destruct (c_hist (cfgOf g n)); discriminate].
  rewrite Eh in K. destruct (rc_parent s1 I1 _ _ K) as (Q & Gc). apply (asts_gc _ _ A2) in Gc.
  eapply leader_prefix; eauto.
  destruct R as (Rn & _). destruct (Rn n) as (E & _). pose proof (i_cfg _ _ _ I n) as O. rewrite E in O. simpl in O.
  fold (cfgOf g n) in O. destruct O as [(_ & Ot & _)|O]; [lia|]. rewrite O in *. simpl in *. auto.
Qed.
End kept.
