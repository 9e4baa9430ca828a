(** C22: the leader's quorum time is the quorum-th newest pong. *)
From Coq Require Import ZArith List Bool Arith Lia Permutation Sorted.
From Verif Require Import Base Pong_Model Pong_Spec.
Import ListNotations.
Local Open Scope Z_scope.

Definition lt (a b : pong) : Prop := cmp a b = Lt.
Lemma cmp_spec : forall a b,
  (cmp a b = Lt <-> pg_tm b < pg_tm a \/ (pg_tm a = pg_tm b /\ (pg_peer a < pg_peer b)%nat)) /\
  (cmp a b = Eq <-> a = b) /\
  (cmp a b = Gt <-> pg_tm a < pg_tm b \/ (pg_tm a = pg_tm b /\ (pg_peer b < pg_peer a)%nat)).
Proof.
  intros [pa ta] [pb tb]. unfold cmp. cbn.
  destruct (Z.ltb_spec tb ta); [|destruct (Z.ltb_spec ta tb); [|destruct (Nat.compare_spec pa pb)]];
    (split; [|split]); split; intros X; try reflexivity; try discriminate; try lia;
    try (injection X as X1 X2; lia).
  subst. f_equal. lia.
Qed.
Lemma lt_trans : forall a b c, lt a b -> lt b c -> lt a c.
Proof.
  intros a b c H1 H2. apply (proj1 (cmp_spec a b)) in H1. apply (proj1 (cmp_spec b c)) in H2.
  apply (proj1 (cmp_spec a c)). lia.
Qed.

(** The queue represents a table. *)
Record rep (l : list pong) (f : table) : Prop := mkRep {
  rp_sorted : StronglySorted lt l;
  rp_in : forall p t, f p = Some t <-> In (mkPong p t) l;
  rp_tm : forall x, In x l -> pg_tm x <> 0
}.
Lemma insert_in : forall x l l', insert x l = Some l' -> forall y, In y l' <-> y = x \/ In y l.
Proof.
  intros x. induction l as [|z r IH]; simpl; intros l' H y.
  - injection H as <-. simpl. split; intros [?|?]; auto.
  - destruct (cmp x z); try discriminate.
    + injection H as <-. simpl. intuition auto.
    + destruct (insert x r) as [r'|]; [|discriminate]. injection H as <-. simpl. rewrite (IH r' eq_refl y). intuition auto.
Qed.
Lemma insert_sorted : forall x l l', StronglySorted lt l -> insert x l = Some l' -> StronglySorted lt l'.
Proof.
  intros x. induction l as [|z r IH]; simpl; intros l' S H.
  - injection H as <-. repeat constructor.
  - inversion S; subst. destruct (cmp x z) eqn:C; try discriminate.
    + injection H as <-. constructor; auto. constructor; auto. eapply Forall_impl; [|eassumption].
      intros a Ha. eapply lt_trans; eauto.
    + destruct (insert x r) as [r'|] eqn:E; [|discriminate]. injection H as <-.
      constructor; [apply IH; auto|]. rewrite Forall_forall in *. intros y Hy.
      apply (insert_in _ _ _ E) in Hy. destruct Hy as [->|Hy]; auto.
      apply (proj1 (cmp_spec z x)). apply (proj2 (proj2 (cmp_spec x z))) in C. lia.
Qed.
Lemma insert_ok : forall x l, (forall y, In y l -> pg_peer y <> pg_peer x) -> exists l', insert x l = Some l'.
Proof.
  intros x. induction l as [|z r IH]; simpl; intros H; [eauto|].
  destruct (cmp x z) eqn:C; [|eauto|].
  - apply (proj1 (proj2 (cmp_spec x z))) in C. subst. exfalso. apply (H z); auto.
  - destruct IH as [r' ->]; eauto.
Qed.
Lemma del_in : forall p l y, In y (delPeerID p l) <-> In y l /\ pg_peer y <> p.
Proof.
  intros p. induction l as [|z r IH]; simpl; intros y; [tauto|].
  destruct (Nat.eqb_spec (pg_peer z) p); simpl; rewrite IH.
  - split; [tauto|]. intros [[A|A] B]; [subst; contradiction|auto].
  - split; [intros [<-|[A B]]; auto|tauto].
Qed.
Lemma del_sorted : forall p l, StronglySorted lt l -> StronglySorted lt (delPeerID p l).
Proof.
  intros p. induction l as [|z r IH]; simpl; intros S; auto. inversion S; subst.
  destruct (Nat.eqb (pg_peer z) p); auto. constructor; auto. rewrite Forall_forall in *.
  intros y Hy. apply del_in in Hy. apply H2. tauto.
Qed.
Lemma rep_empty : rep [] empty.
Proof. constructor; [constructor|unfold empty; intros; simpl; intuition discriminate|simpl; tauto]. Qed.
Lemma rep_del : forall l f p, rep l f -> rep (delPeerID p l) (setT f p None).
Proof.
  intros l f p [S I T]. constructor.
  - apply del_sorted; auto.
  - intros q t. rewrite del_in. unfold setT. simpl. destruct (Nat.eqb_spec q p); [intuition discriminate|].
    rewrite I. tauto.
  - intros x Hx. apply del_in in Hx. apply T. tauto.
Qed.
Lemma pong_eta : forall x, x = mkPong (pg_peer x) (pg_tm x). Proof. intros []; auto. Qed.

Lemma exec_does : forall c l f o l', rep l f -> exec c l = Some (o, l') -> exists f', does c f o f' /\ rep l' f'.
Proof.
  intros [x|p| |] l f o l' R H; simpl in H.
  - unfold add in H. destruct (Z.eqb_spec (pg_tm x) 0); [discriminate|].
    destruct (insert x (delPeerID (pg_peer x) l)) as [l2|] eqn:E; [|discriminate]. injection H as <- <-.
    eexists; split; [constructor|]. pose proof (rep_del l f (pg_peer x) R) as [S I T].
    constructor.
    + eapply insert_sorted; eauto.
    + intros q t. rewrite (insert_in _ _ _ E), <- I. unfold setT. destruct (Nat.eqb_spec q (pg_peer x)).
      * subst. split; [intros H; injection H as <-; left; symmetry; apply pong_eta|].
        intros [H|H]; [|discriminate]. rewrite <- H. auto.
      * split; auto. intros [H|H]; auto. subst x. simpl in *. congruence.
    + intros y Hy. apply (insert_in _ _ _ E) in Hy. destruct Hy as [->|Hy]; auto.
  - injection H as <- <-. eexists; split; [constructor|apply rep_del; auto].
  - destruct l as [|x r]; simpl in H; injection H as <- <-.
    + exists f. split; auto. constructor. intros p. destruct (f p) as [t|] eqn:E; auto. apply (rp_in _ _ R) in E. destruct E.
    + destruct R as [S I T]. inversion S as [|? ? S' F]; subst. rewrite Forall_forall in F.
      assert (Nx : forall y, In y r -> pg_peer y <> pg_peer x).
      { intros y Hy E. pose proof (F y Hy) as L. unfold lt in L. apply (proj1 (cmp_spec x y)) in L.
        assert (A : f (pg_peer x) = Some (pg_tm x)) by (apply I; left; apply pong_eta).
        assert (B : f (pg_peer x) = Some (pg_tm y)) by (apply I; right; rewrite <- E, <- pong_eta; auto).
        rewrite A in B. injection B as B. lia. }
      exists (setT f (pg_peer x) None). split.
      * constructor. split; [apply I; left; apply pong_eta|]. intros q u Hq. apply I in Hq. destruct Hq as [E|Hq].
        -- right. rewrite E. simpl. lia.
        -- specialize (F _ Hq). apply (proj1 (cmp_spec x _)) in F. simpl in F. lia.
      * constructor; auto; [|intros y Hy; apply T; right; auto].
        intros q t. unfold setT. destruct (Nat.eqb_spec q (pg_peer x)).
        -- split; [discriminate|]. intros H. exfalso. apply (Nx _ H). auto.
        -- rewrite I. simpl. split; [intros [->|?]; [simpl in *; congruence|auto]|auto].
  - injection H as <- <-. exists empty. split; [constructor|apply rep_empty].
Qed.

(** The queue holds, for each peer, its latest pong only: every history of calls
    that does not panic behaves like the table. *)
Theorem C22_queue_is_latest_pongs : forall cs l os, execs cs [] = Some (os, l) ->
  exists f, doAll cs empty os f /\ (forall p t, f p = Some t <-> In (mkPong p t) l) /\
            NoDup (map pg_peer l).
Proof.
  intros cs l os H.
  assert (G : forall cs l0 f0 os l, rep l0 f0 -> execs cs l0 = Some (os, l) -> exists f, doAll cs f0 os f /\ rep l f).
  { clear. induction cs as [|c cs IH]; simpl; intros l0 f0 os l R H.
    - injection H as <- <-. exists f0. split; [constructor|auto].
    - destruct (exec c l0) as [[o l1]|] eqn:E; [|discriminate].
      destruct (execs cs l1) as [[os' l2]|] eqn:E2; [|discriminate]. injection H as <- <-.
      destruct (exec_does _ _ _ _ _ R E) as (f1 & D & R1). destruct (IH _ _ _ _ R1 E2) as (f & D2 & R2).
      exists f. split; auto. econstructor; eauto. }
  destruct (G _ _ _ _ _ rep_empty H) as (f & D & R). exists f. split; auto. split; [apply R|].
  destruct R as [S I T]. clear - S I. assert (I' : forall p t u, In (mkPong p t) l -> In (mkPong p u) l -> t = u).
  { intros p t u A B. apply I in A, B. congruence. }
  clear I. induction S as [|x r S IH F]; simpl; constructor.
  - intros Hin. apply in_map_iff in Hin. destruct Hin as (y & E & Hy). rewrite Forall_forall in F. specialize (F y Hy).
    assert (E2 : pg_tm y = pg_tm x).
    { apply (I' (pg_peer x)); [right; rewrite <- E, <- pong_eta; auto|left; apply pong_eta]. }
    apply (proj1 (cmp_spec x y)) in F. lia.
  - apply IH. intros p t u A B. apply (I' p); right; auto.
Qed.
Print Assumptions C22_queue_is_latest_pongs.

(** Adding never panics for a non-zero time. *)
Theorem C22_add_never_panics : forall cs l os x, execs cs [] = Some (os, l) -> pg_tm x <> 0 ->
  exists l', add x l = Some l'.
Proof.
  intros cs l os x H T. unfold add. destruct (Z.eqb_spec (pg_tm x) 0); [contradiction|].
  apply insert_ok. intros y Hy. apply del_in in Hy. tauto.
Qed.
Print Assumptions C22_add_never_panics.

Lemma walk_nth : forall l i goal x, (i <= goal)%nat -> nth_error l (goal - i) = Some x -> pg_tm x <> 0 -> walk i goal l = QAt x.
Proof.
  induction l as [|y r IH]; intros i goal x L H T; [destruct (goal - i)%nat; discriminate|].
  simpl. destruct (Nat.eqb_spec i goal) as [->|N].
  - rewrite Nat.sub_diag in H. injection H as ->. destruct (Z.eqb_spec (pg_tm x) 0); [contradiction|auto].
  - apply IH; [lia| |auto]. replace (goal - i)%nat with (S (goal - S i)) in H by lia. exact H.
Qed.
Lemma count_ge : forall l i x (P : pong -> bool), nth_error l i = Some x ->
  (forall j y, (j <= i)%nat -> nth_error l j = Some y -> P y = true) -> (i < length (filter P l))%nat.
Proof.
  induction l as [|z r IH]; intros i x P H A; [destruct i; discriminate|].
  simpl. rewrite (A O z); [|lia|reflexivity]. destruct i as [|i]; simpl; [lia|].
  apply -> Nat.succ_lt_mono. eapply IH; [exact H|]. intros j y L Hy. apply (A (S j) y); [lia|exact Hy].
Qed.
Lemma count_lt : forall l i (P : pong -> bool),
  (forall j y, (i <= j)%nat -> nth_error l j = Some y -> P y = false) -> (length (filter P l) <= i)%nat.
Proof.
  induction l as [|z r IH]; intros i P A; simpl; [lia|]. destruct i as [|i].
  - rewrite (A O z); [|lia|reflexivity]. apply (IH O). intros j y _ Hy. apply (A (S j) y); [lia|exact Hy].
  - assert (length (filter P r) <= i)%nat by (apply IH; intros j y L Hy; apply (A (S j) y); [lia|exact Hy]).
    destruct (P z); simpl; lia.
Qed.
Lemma sorted_nth : forall l, StronglySorted lt l -> forall i j x y, (i < j)%nat -> nth_error l i = Some x -> nth_error l j = Some y -> lt x y.
Proof.
  induction 1 as [|z r S IH F]; intros i j x y L Hx Hy; [destruct i; discriminate|].
  destruct j as [|j]; [lia|]. destruct i as [|i]; simpl in *.
  - injection Hx as <-. rewrite Forall_forall in F. apply F. eapply nth_error_In; eauto.
  - eapply (IH i j); eauto. lia.
Qed.
Lemma filter_map_len : forall (P : pong -> bool) (Q : nat -> bool) l, (forall x, In x l -> P x = Q (pg_peer x)) ->
  length (filter P l) = length (filter Q (map pg_peer l)).
Proof.
  induction l as [|x r IH]; simpl; intros H; auto. rewrite <- (H x) by auto.
  destruct (P x); simpl; rewrite IH; auto.
Qed.
Lemma Permutation_filter_len : forall (Q : nat -> bool) a b, Permutation a b -> length (filter Q a) = length (filter Q b).
Proof.
  intros Q a b H. induction H; simpl; try congruence.
  - destruct (Q x); simpl; congruence.
  - destruct (Q x), (Q y); simpl; auto.
Qed.

(** quorumPongTm: with some pong present and a quorum of at least one, it fails
    exactly when fewer than [quor] peers are present, and otherwise returns the
    quor-th largest time; it never panics. *)
Theorem C22_quorum_time_partial : forall cs l os f D quor,
  execs cs [] = Some (os, l) -> (forall p t, f p = Some t <-> In (mkPong p t) l) -> lists D f ->
  D <> [] -> 1 <= quor ->
  (Z.of_nat (length D) < quor -> quorumPongTm quor l = QFail) /\
  (quor <= Z.of_nat (length D) -> exists x, quorumPongTm quor l = QAt x /\
     f (pg_peer x) = Some (pg_tm x) /\ qthLargest f D quor (pg_tm x)).
Proof.
  intros cs l os f D quor H Hf (ND & HD) Hne Hq.
  destruct (C22_queue_is_latest_pongs _ _ _ H) as (f' & _ & Hf' & NDl).
  assert (R : rep l f).
  { clear - H Hf.
    assert (G : forall cs l0 f0 os l, rep l0 f0 -> execs cs l0 = Some (os, l) -> exists f, rep l f).
    { clear. induction cs as [|c cs IH]; simpl; intros l0 f0 os l R H; [injection H as <- <-; eauto|].
      destruct (exec c l0) as [[o l1]|] eqn:E; [|discriminate].
      destruct (execs cs l1) as [[os' l2]|] eqn:E2; [|discriminate]. injection H as <- <-.
      destruct (exec_does _ _ _ _ _ R E) as (f1 & D & R1). eauto. }
    destruct (G _ _ _ _ _ rep_empty H) as (g & [S _ T]). constructor; auto. }
  assert (PD : Permutation D (map pg_peer l)).
  { apply NoDup_Permutation; auto. intros p. rewrite HD. split.
    - intros Hn. destruct (f p) as [t|] eqn:E; [|congruence]. apply Hf in E. apply in_map_iff. exists (mkPong p t); auto.
    - intros Hin. apply in_map_iff in Hin. destruct Hin as (x & <- & Hx). rewrite (pong_eta x) in Hx. apply Hf in Hx. congruence. }
  assert (Len : length D = length l) by (rewrite (Permutation_length PD); apply map_length).
  assert (Hl : length l <> O). { rewrite <- Len. destruct D; [congruence|discriminate]. }
  unfold quorumPongTm. destruct (Nat.eqb_spec (length l) 0); [congruence|]. destruct (Z.ltb_spec quor 1); [lia|]. cbn [orb].
  rewrite Len. split; intros C; destruct (Z.ltb_spec (Z.of_nat (length l)) quor); try lia; auto.
  set (i := Z.to_nat (quor - 1)).
  destruct (nth_error l i) as [x|] eqn:E; [|apply nth_error_None in E; lia].
  destruct R as [S I T].
  exists x. split; [apply walk_nth; [lia|rewrite Nat.sub_0_r; auto|apply T; eapply nth_error_In; eauto]|].
  split; [apply I; rewrite <- pong_eta; eapply nth_error_In; eauto|].
  assert (V : forall y, In y l -> f (pg_peer y) = Some (pg_tm y)) by (intros y Hy; apply I; rewrite <- pong_eta; auto).
  unfold qthLargest. rewrite !(Permutation_filter_len _ _ _ PD).
  rewrite <- (filter_map_len (fun y => pg_tm x <=? pg_tm y)) by (intros y Hy; unfold timeAtLeast; rewrite (V y Hy); auto).
  rewrite <- (filter_map_len (fun y => pg_tm x <? pg_tm y)) by (intros y Hy; unfold timeAfter; rewrite (V y Hy); auto).
  split.
  - assert (i < length (filter (fun y => (pg_tm x <=? pg_tm y)%Z) l))%nat; [|lia].
    eapply count_ge; [exact E|]. intros j y L Hy. apply Z.leb_le. destruct (Nat.eq_dec j i) as [->|].
    + assert (y = x) by congruence. subst; lia.
    + pose proof (sorted_nth _ S j i y x ltac:(lia) Hy E) as X. apply (proj1 (cmp_spec y x)) in X. lia.
  - assert (length (filter (fun y => (pg_tm x <? pg_tm y)%Z) l) <= i)%nat; [|lia].
    apply count_lt. intros j y L Hy. apply Z.ltb_ge. destruct (Nat.eq_dec j i) as [->|].
    + assert (y = x) by congruence. subst; lia.
    + pose proof (sorted_nth _ S i j x y ltac:(lia) E Hy) as X. apply (proj1 (cmp_spec x y)) in X. lia.
Qed.
Print Assumptions C22_quorum_time_partial.

(** With no pong at all the answer is "ok, now", whatever the quorum: a leader
    that no follower has answered is told it has a quorum. *)
Theorem C22_empty_queue_refuted : forall quor, quorumPongTm quor [] = QNow.
Proof. reflexivity. Qed.
Print Assumptions C22_empty_queue_refuted.

Definition c22 : list call :=
  [Add (mkPong 1 10); Add (mkPong 2 20); Add (mkPong 3 15); Add (mkPong 1 30); Del 3; Add (mkPong 4 20); Add (mkPong 3 5); Pop].
Example C22_nonvacuous : exists l os, execs c22 [] = Some (os, l) /\ l = [mkPong 2 20; mkPong 4 20; mkPong 3 5] /\
  last os None = Some (mkPong 1 30) /\ quorumPongTm 2 l = QAt (mkPong 4 20) /\ quorumPongTm 3 l = QAt (mkPong 3 5) /\
  quorumPongTm 4 l = QFail /\
  let f := fun p => match p with 2%nat => Some 20 | 4%nat => Some 20 | 3%nat => Some 5 | _ => None end in
  (forall p t, f p = Some t <-> In (mkPong p t) l) /\ lists [2; 3; 4]%nat f.
Proof.
  eexists. eexists. split; [vm_compute; reflexivity|]. repeat split.
  - intros E. destruct p as [|[|[|[|[|p]]]]]; try discriminate; injection E as <-; simpl; auto.
  - intros [E|[E|[E|[]]]]; injection E as <- <-; auto.
  - repeat constructor; simpl; intuition discriminate.
  - intros [<-|[<-|[<-|[]]]]; discriminate.
  - intros N. destruct p as [|[|[|[|[|p]]]]]; simpl; auto; congruence.
Qed.
