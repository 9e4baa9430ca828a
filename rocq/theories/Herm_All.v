(* Every execution, with either way of sending ACKs, with deadlines and
   panics: a request is answered at most once, and a value that is read has
   been written. *)

From Coq Require Import List Arith Bool Lia.
Import ListNotations.
From Verif Require Import Herm_Spec Herm_Model Herm_Order Herm_Lin Herm_Tick Herm_Uni.

Definition live (p : list tkt) : list nat := map tId (filter (fun t => negb (tPseudo t)) p).

Lemma live_in p i : In i (live p) <-> exists t, In t p /\ tPseudo t = false /\ tId t = i.
Proof.
  unfold live. rewrite in_map_iff. split.
  - intros (t & <- & H). apply filter_In in H. rewrite negb_true_iff in H. exists t. tauto.
  - intros (t & A & B & <-). exists t. split; auto. apply filter_In. rewrite B. auto.
Qed.

Lemma live_app p q : live (p ++ q) = live p ++ live q.
Proof. unfold live. now rewrite filter_app, map_app. Qed.

Lemma live_drop_nin id p : ~ In id (live (dropId id p)).
Proof. rewrite live_in. intros (t & A & _ & E). apply dropId_in in A. tauto. Qed.

Lemma live_drop_incl id p : incl (live (dropId id p)) (live p).
Proof. intros i. rewrite !live_in. intros (t & A & B). apply dropId_in in A. exists t. tauto. Qed.

Lemma filter_comm {A} (f g : A -> bool) l : filter f (filter g l) = filter g (filter f l).
Proof.
  induction l as [|x l IH]; cbn; auto.
  destruct (g x) eqn:G; destruct (f x) eqn:F; cbn; rewrite ?G, ?F, IH; auto.
Qed.

Lemma nodup_app_iff {A} (l m : list A) :
  NoDup (l ++ m) <-> NoDup l /\ NoDup m /\ (forall x, In x l -> In x m -> False).
Proof.
  induction l as [|a l IH]; cbn.
  - split; [intros; repeat split; auto; constructor|tauto].
  - split.
    + intros H. inversion H; subst. apply IH in H3. destruct H3 as (A1 & A2 & A3).
      rewrite in_app_iff in H2. repeat split; auto.
      * constructor; tauto.
      * intros x [<-|X] Y; eauto.
    + intros (A1 & A2 & A3). inversion A1; subst. constructor.
      * rewrite in_app_iff. intros [X|X]; eauto.
      * apply IH. repeat split; eauto.
Qed.

Lemma live_drop_nodup id p : NoDup (live p) -> NoDup (live (dropId id p)).
Proof.
  intros H. unfold live, dropId. rewrite filter_comm. apply map_filter_nodup. exact H.
Qed.

Local Arguments live : simpl never.

Section A.
Variable W : option nat -> Prop.
Variable Q : nat -> Prop.
Variable Bd : nat -> Prop.
Hypothesis W0 : W None.

Definition outV (o : out) : Prop :=
  match o with
  | OBcast m | OSend _ m =>
      match m with MInv _ _ v id => W v /\ Bd id | MAck _ _ id | MVal _ _ id => Bd id end
  | OIssue id _ _ => Bd id
  | ODone _ _ (TOk v _) => W v
  | _ => True
  end.

Definition dids (s : nst) : list nat := map fst (dones (hOut s)).
Local Arguments dids : simpl never.

Record R (s : nst) : Prop := {
  r_key : forall k, hKey s = Some k -> W (kVal k);
  r_tk : forall t, In t (hPend s) -> W (tVal t);
  r_out : Forall outV (hOut s);
  r_b : forall t, In t (hPend s) -> Bd (tId t);
  r_ids : NoDup (map tId (hPend s));
  r_nd : NoDup (dids s ++ live (hPend s));
  r_q : forall id, In id (dids s ++ live (hPend s)) -> Q id }.

Definition rv (r : hres) : Prop := match r with HOk s | HPanic s => R s end.

Lemma rv_bind r f : rv r -> (forall s, R s -> rv (f s)) -> rv (bind r f).
Proof. destruct r; cbn; auto. Qed.

Lemma R_key s k : R s -> W (kVal k) -> R (setKey k s).
Proof. intros [] H. constructor; auto. cbn. intros k' [= <-]. auto. Qed.

Lemma R_st s x : R s -> R (setSt x s).
Proof.
  intros H. unfold setSt. destruct (hKey s) as [k|] eqn:E; auto. apply R_key; auto. cbn. apply (r_key _ H); auto.
Qed.

Lemma R_emit s o : R s -> outV o -> doneId o = [] -> R (emit o s).
Proof.
  intros [] V D.
  assert (E : dids (emit o s) = dids s).
  { unfold dids, dones. cbn. rewrite flat_map_app. cbn. rewrite D. now rewrite !app_nil_r. }
  constructor; auto; try (rewrite E; auto). cbn. apply Forall_app. auto.
Qed.

Lemma R_drop s id : R s -> R (setPend (dropId id (hPend s)) s).
Proof.
  intros []. constructor; cbn; auto.
  - intros t T. apply dropId_in in T. apply r_tk0. tauto.
  - intros t T. apply dropId_in in T. apply r_b0. tauto.
  - apply dropId_nodup; auto.
  - change (dids (setPend (dropId id (hPend s)) s)) with (dids s).
    apply nodup_app_iff in r_nd0. destruct r_nd0 as (A & B1 & C). apply nodup_app_iff. repeat split; auto.
    + apply live_drop_nodup; auto.
    + intros x X Y. apply live_drop_incl in Y. eauto.
  - intros i H. apply r_q0. change (dids (setPend (dropId id (hPend s)) s)) with (dids s) in H.
    apply in_app_or in H. apply in_or_app. destruct H as [|H]; auto. apply live_drop_incl in H. auto.
Qed.

Lemma dids_emit s id op r : dids (emit (ODone id op r) s) = dids s ++ [id].
Proof. unfold dids, dones. cbn. rewrite flat_map_app, map_app. reflexivity. Qed.

Lemma R_close s t r : R s -> In t (hPend s) -> outV (ODone (tId t) (tOp t) r) ->
  R (closeDone t r (setPend (dropId (tId t) (hPend s)) s)).
Proof.
  intros H T V. pose proof (R_drop s (tId t) H) as D. unfold closeDone.
  destruct (tPseudo t) eqn:P; auto.
  set (s1 := setPend (dropId (tId t) (hPend s)) s) in *.
  assert (LV : In (tId t) (live (hPend s))) by (apply live_in; exists t; auto).
  assert (NP : ~ In (tId t) (live (hPend s1))) by (cbn; apply live_drop_nin).
  assert (ND : ~ In (tId t) (dids s1)).
  { intros X. destruct H. apply nodup_app_iff in r_nd0. destruct r_nd0 as (_ & _ & C). apply (C (tId t)); auto. }
  destruct D. constructor; auto.
  - cbn. apply Forall_app. split; auto.
  - rewrite dids_emit. rewrite <- app_assoc. cbn.
    apply NoDup_Add with (a := tId t) (l := dids s1 ++ live (hPend s1)); [apply Add_app|]. split; auto.
    rewrite in_app_iff. tauto.
  - rewrite dids_emit. intros i X. rewrite <- app_assoc in X. cbn in X.
    apply in_app_or in X. destruct X as [X|[<-|X]].
    + apply r_q0. apply in_or_app; auto.
    + destruct H. apply r_q1. apply in_or_app; auto.
    + apply r_q0. apply in_or_app; auto.
Qed.

Lemma R_mod s id f : R s -> (forall t, tId (f t) = tId t /\ tPseudo (f t) = tPseudo t) ->
  (forall t, In t (hPend s) -> W (tVal t) -> W (tVal (f t))) -> R (modTicket id f s).
Proof.
  intros [] F V.
  assert (L : live (hPend (modTicket id f s)) = live (hPend s)).
  { unfold live, modTicket; cbn. clear - F. induction (hPend s) as [|t p IH]; cbn; auto.
    replace (tPseudo (if tId t =? id then f t else t)) with (tPseudo t) by (destruct (tId t =? id); auto; now rewrite (proj2 (F t))).
    destruct (tPseudo t); cbn; auto. rewrite IH. f_equal. destruct (tId t =? id); auto. apply F. }
  assert (D : dids (modTicket id f s) = dids s) by reflexivity.
  constructor; rewrite ?L, ?D; auto.
  - intros t T. apply modTicket_in in T. destruct T as (u & U & ->). destruct (tId u =? id); auto.
  - intros t T. apply modTicket_in in T. destruct T as (u & U & ->). destruct (tId u =? id); auto.
    rewrite (proj1 (F u)). auto.
  - rewrite modTicket_ids; auto. intros t; apply F.
Qed.

Lemma R_add s t : R s -> ~ In (tId t) (map tId (hPend s)) -> W (tVal t) -> Bd (tId t) ->
  (tPseudo t = false -> Q (tId t) /\ ~ In (tId t) (dids s)) -> R (setPend (hPend s ++ [t]) s).
Proof.
  intros [] F V BT P. constructor; cbn; auto.
  - intros u U. apply in_app_or in U. destruct U as [U|[<-|[]]]; auto.
  - intros u U. apply in_app_or in U. destruct U as [U|[<-|[]]]; auto.
  - rewrite map_app. cbn. apply NoDup_Add with (a := tId t) (l := map tId (hPend s) ++ []); [apply Add_app|].
    rewrite app_nil_r. auto.
  - change (dids (setPend (hPend s ++ [t]) s)) with (dids s). rewrite live_app.
    unfold live at 2; cbn. destruct (tPseudo t) eqn:PS; cbn; [now rewrite app_nil_r|].
    rewrite app_assoc. apply NoDup_Add with (a := tId t) (l := (dids s ++ live (hPend s)) ++ []); [apply Add_app|].
    rewrite app_nil_r. split; auto. rewrite in_app_iff. intros [X|X]; [tauto|].
    apply live_in in X. destruct X as (u & U & _ & E). apply F. rewrite <- E. now apply in_map.
  - change (dids (setPend (hPend s ++ [t]) s)) with (dids s). rewrite live_app.
    unfold live at 2; cbn. destruct (tPseudo t) eqn:PS; cbn; [rewrite app_nil_r; auto|].
    intros i X. rewrite app_assoc in X. apply in_app_or in X. destruct X as [X|[<-|[]]]; auto. tauto.
Qed.

Lemma R_delete id b s : R s -> rv (deleteTicket id b s).
Proof. intros H. unfold deleteTicket. destruct (getTicket id s); [apply R_drop|destruct b]; cbn; auto. Qed.

Lemma R_record t s : R s -> W (tVal t) -> Bd (tId t) ->
  (tPseudo t = false -> Q (tId t) /\ ~ In (tId t) (dids s)) -> rv (recordPending t s).
Proof.
  intros H V BT P. unfold recordPending. destruct (getTicket (tId t) s) as [t0|] eqn:G.
  - destruct (tInPQ t0); [exact H|]. unfold deleteTicket. rewrite G. cbn.
    apply (R_add (setPend (dropId (tId t) (hPend s)) s) (inPQ true t)); auto.
    + apply R_drop; auto.
    + cbn. intros X. apply in_map_iff in X. destruct X as (u & E & U). apply dropId_in in U. tauto.
  - cbn. apply (R_add s (inPQ true t)); auto. now apply getTicket_none in G.
Qed.

Lemma R_unblock s : R s -> R (unblockReads s).
Proof.
  intros H. unfold unblockReads. destruct (hKey s) as [k|] eqn:HK; auto.
  pose proof (r_key _ H k HK) as WK. pose proof (r_ids _ H) as ND.
  assert (X : forall l s0, R s0 -> NoDup (map tId l) -> incl l (hPend s0) -> R (fold_left
    (fun s1 t => match tOp t with WRITE => s1
       | READ => closeDone t (TOk (kVal k) (kTS k)) (setPend (dropId (tId t) (hPend s1)) s1) end) l s0)).
  { induction l as [|t l IH]; cbn [fold_left]; auto. intros s0 R0 N I. cbn in N. inversion N; subst.
    destruct (tOp t).
    - apply IH; auto.
      + apply R_close; auto. apply I. left; auto.
      + assert (E : hPend (closeDone t (TOk (kVal k) (kTS k)) (setPend (dropId (tId t) (hPend s0)) s0)) = dropId (tId t) (hPend s0))
          by (unfold closeDone; destruct (tPseudo t); reflexivity).
        rewrite E. intros u U. apply dropId_in. split; [apply I; right; auto|].
        intros E2. apply H2. rewrite <- E2. now apply in_map.
    - apply IH; auto. intros u U. apply I. right; auto. }
  apply X; auto. apply incl_refl.
Qed.

Lemma R_complete id s : R s -> rv (completeWrite id s).
Proof.
  intros H. unfold completeWrite. destruct (getTicket id s) as [t|] eqn:G; [|exact H].
  destruct (hKey s) as [k|]; [|exact H]. pose proof G as G'. apply getTicket_some in G. destruct G as [G1 G2].
  set (s1 := setKey _ s).
  assert (H1 : R s1) by (apply R_key; auto; cbn; apply (r_tk _ H); auto).
  unfold deleteTicket. change (getTicket id s1) with (getTicket id s). rewrite G'. cbn [bind rv].
  apply R_unblock. subst id. apply (R_close s1 t); auto. cbn. apply (r_tk _ H); auto.
Qed.

Lemma R_completeAll l : forall s, R s -> rv (completeAll l s).
Proof. induction l as [|x l IH]; cbn; auto. intros s H. apply rv_bind; auto. now apply R_complete. Qed.

Lemma in_skipn {A} n (l : list A) x : In x (skipn n l) -> In x l.
Proof. revert l. induction n as [|n IH]; intros [|y l]; cbn; auto. Qed.

Lemma R_release c k P0 : NoDup (map tId P0) -> forall n i arr s, R s -> incl arr P0 -> incl (hPend s) P0 ->
  rv (releaseLoop c k n i arr s).
Proof.
  intros ND. induction n as [|n IH]; intros i arr s H A B1; cbn [releaseLoop]; auto.
  destruct (nth_error arr i) as [t|] eqn:E; auto.
  assert (TA : In t P0) by (apply A; eapply nth_error_In; eauto).
  destruct (tOp t) eqn:O; auto. destruct (tFrom t =? kLast k); auto.
  destruct (tsCompare c (kTS k) (tTS t)); auto.
  unfold deleteTicket. destruct (getTicket (tId t) s) as [t0|] eqn:G; [|exact H].
  apply getTicket_some in G. destruct G as [G1 G2].
  assert (t0 = t) by (eapply nodup_tid; eauto). subst t0.
  cbn [bind]. set (s1 := setPend (dropId (tId t) (hPend s)) s).
  assert (I1 : incl (hPend s1) P0).
  { intros u U. cbn in U. apply dropId_in in U. apply B1. tauto. }
  apply IH.
  - apply R_close; cbn; auto.
  - intros u U. apply in_app_or in U. destruct U as [U|U]; auto. apply A. eapply in_skipn; eauto.
  - unfold closeDone. destruct (tPseudo t); exact I1.
Qed.

Lemma R_releaseD c s : R s -> rv (releaseDiscarded c s).
Proof.
  intros H. unfold releaseDiscarded. destruct (hKey s); [|exact H].
  apply (R_release c k (hPend s)); auto; try apply incl_refl. apply (r_ids _ H).
Qed.

Lemma addAck_same f t : tId (addAck f t) = tId t /\ tPseudo (addAck f t) = tPseudo t.
Proof. auto. Qed.

Lemma R_addAck s id f : R s -> R (modTicket id (addAck f) s).
Proof. intros H. apply R_mod; auto. Qed.

Lemma R_read c me id w s : R s -> Bd id -> Q id -> ~ In id (dids s) -> ~ In id (map tId (hPend s)) ->
  rv (readReq c me id w s).
Proof.
  intros H HB HQ D F. unfold readReq.
  assert (CL : forall s1 v t, R s1 -> W v -> ~ In id (dids s1) -> ~ In id (live (hPend s1)) ->
     R (emit (ODone id READ (TOk v t)) s1)).
  { intros s1 v t [] WV D1 F1. constructor; auto.
    - cbn. apply Forall_app. split; auto.
    - rewrite dids_emit. rewrite <- app_assoc. cbn.
      apply NoDup_Add with (a := id) (l := dids s1 ++ live (hPend s1)); [apply Add_app|]. split; auto.
      rewrite in_app_iff. tauto.
    - rewrite dids_emit. intros i X. rewrite <- app_assoc in X. cbn in X.
      apply in_app_or in X. destruct X as [X|[<-|X]]; auto; apply r_q0; apply in_or_app; auto. }
  assert (NF : forall s1, R s1 -> ~ In id (dids s1) -> ~ In id (live (hPend s1)) -> R (emit (ODone id READ TNotFound) s1)).
  { intros s1 [] D1 F1. constructor; auto.
    - cbn. apply Forall_app. split; auto. constructor; cbn; auto.
    - rewrite dids_emit. rewrite <- app_assoc. cbn.
      apply NoDup_Add with (a := id) (l := dids s1 ++ live (hPend s1)); [apply Add_app|]. split; auto.
      rewrite in_app_iff. tauto.
    - rewrite dids_emit. intros i X. rewrite <- app_assoc in X. cbn in X.
      apply in_app_or in X. destruct X as [X|[<-|X]]; auto; apply r_q0; apply in_or_app; auto. }
  assert (LF : ~ In id (live (hPend s))).
  { intros X. apply live_in in X. destruct X as (u & U & _ & E). apply F. rewrite <- E. now apply in_map. }
  destruct (hKey s) as [k|] eqn:HK.
  - destruct (kSt k); try (apply R_record; cbn; auto; fail).
    cbn [rv]. unfold closeDone. cbn [tPseudo newTicket tId tOp].
    rewrite (unblockReads_eq s k HK (r_ids _ H)).
    apply CL.
    + rewrite <- (unblockReads_eq s k HK (r_ids _ H)). now apply R_unblock.
    + apply (r_key _ H); auto.
    + unfold dids; cbn. unfold dones. rewrite flat_map_app, map_app. intros X. apply in_app_or in X. destruct X as [X|X]; auto.
      apply in_map_iff in X. destruct X as ((i & o) & E & X). cbn in E. subst i.
      apply in_flat_map in X. destruct X as (oo & X1 & X2). unfold rdones in X1. apply in_flat_map in X1.
      destruct X1 as (t & T & X1). unfold rdone in X1. destruct (tOp t); [|contradiction]. destruct (tPseudo t); [contradiction|].
      destruct X1 as [<-|[]]. destruct X2 as [X2|[]]. injection X2 as X2 _. apply F. rewrite <- X2. now apply in_map.
    + cbn. intros X. apply live_in in X. destruct X as (u & U & _ & E). apply filter_In in U. apply F. rewrite <- E. apply in_map. tauto.
  - destruct ((cRD c =? 1) || negb w).
    + cbn [rv]. apply NF; auto.
    + cbn [kSt]. apply R_record; cbn; auto. apply R_key; auto.
Qed.

Lemma R_write c me id v s : R s -> W v -> Bd id -> Q id -> ~ In id (dids s) -> ~ In id (map tId (hPend s)) ->
  rv (writeReq c me id v s).
Proof.
  intros H WV HB HQ D F. unfold writeReq.
  assert (ISS : forall s1 t x, R s1 -> R (emit (OIssue id t x) s1)) by (intros; apply R_emit; cbn; auto).
  assert (CONT : forall k s1, R s1 -> ~ In id (dids s1) ->
    rv (match kSt k with
        | SValid | SInvalid =>
            bind (recordPending (newTicket id WRITE v (TS (S (tver (kTS k))) me) me false true)
                    (emit (OIssue id (TS (S (tver (kTS k))) me) v) (setKey (KM (TS (S (tver (kTS k))) me) SWrite me v) s1)))
              (fun s2 => HOk (emit (OBcast (MInv me (TS (S (tver (kTS k))) me) v id)) s2))
        | SInvalidWR | SWrite | SReplay => recordPending (newTicket id WRITE v (kTS k) me false true) s1
        end)).
  { intros k s1 H1 D1.
    assert (DE : dids (emit (OIssue id (TS (S (tver (kTS k))) me) v) (setKey (KM (TS (S (tver (kTS k))) me) SWrite me v) s1)) = dids s1).
    { unfold dids, dones. cbn. rewrite flat_map_app. cbn. now rewrite app_nil_r. }
    destruct (kSt k); try (apply R_record; cbn; auto; fail);
      (apply rv_bind; [apply R_record; cbn; auto; [apply ISS; apply R_key; auto|rewrite DE; auto]|intros s2 H2; cbn; apply R_emit; cbn; auto]). }
  destruct (hKey s) as [k|] eqn:HK; [apply CONT; auto|].
  destruct (cRD c =? 1).
  - cbn [rv].
    assert (LF : ~ In id (live (hPend s))).
    { intros X. apply live_in in X. destruct X as (u & U & _ & E). apply F. rewrite <- E. now apply in_map. }
    assert (H1 : R (emit (OIssue id (TS 0 me) v) (setKey (withSt (KM (TS 0 me) SInvalid me v) SValid) s))) by (apply ISS; apply R_key; auto).
    set (s1 := emit (OIssue _ _ _) _) in *.
    assert (DE : dids s1 = dids s).
    { unfold dids, dones. cbn. rewrite flat_map_app. cbn. now rewrite app_nil_r. }
    destruct H1. constructor; auto.
    + cbn. apply Forall_app. split; auto.
    + rewrite dids_emit. rewrite <- app_assoc. cbn [app].
      apply NoDup_Add with (a := id) (l := dids s1 ++ live (hPend s1)); [apply Add_app|]. split; auto.
      rewrite in_app_iff, DE. tauto.
    + rewrite dids_emit. intros i X. rewrite <- app_assoc in X. cbn [app] in X.
      apply in_app_or in X. destruct X as [X|[<-|X]]; auto; apply r_q0; apply in_or_app; auto.
  - apply (CONT (KM (TS 0 me) SInvalid me v)); auto. apply R_key; auto.
Qed.

Lemma R_sendAck c me f t id s : R s -> Bd id -> R (sendAck c me f t id s).
Proof. intros H HB. unfold sendAck. destruct (cBcast c); apply R_emit; cbn; auto. Qed.

Lemma R_actionI c f t v id s : R s -> W v -> Bd id -> rv (actionI c f t v id s).
Proof.
  intros H WV HB. unfold actionI. destruct (hKey s) as [k|]; [|exact H].
  set (s1 := setKey _ s). assert (H1 : R s1) by (apply R_key; auto).
  destruct (cBcast c); [|exact H1]. destruct (cRD c <=? 2).
  - cbn [rv]. apply R_unblock, R_st; auto.
  - apply rv_bind; [|intros; cbn [rv]; now apply R_addAck].
    destruct (getTicket id s1) as [tk|] eqn:G.
    + destruct (tPseudo tk); cbn; auto. apply R_mod; auto.
    + apply R_record; cbn; auto. discriminate.
Qed.

Lemma R_inv c me f t v id s : R s -> W v -> Bd id -> rv (recvInv c me f t v id s).
Proof.
  intros H WV HB. unfold recvInv.
  set (s0 := match hKey s with None => _ | Some _ => s end).
  assert (H0 : R s0) by (unfold s0; destruct (hKey s); auto; apply R_key; auto).
  destruct (hKey s0) as [k|]; [|exact H0].
  apply rv_bind.
  - destruct (tsCompare c t (kTS k)).
    + apply rv_bind; [apply R_actionI; auto|intros; cbn [rv]; now apply R_sendAck].
    + cbn [rv]. now apply R_sendAck.
    + destruct (kSt k).
      * apply rv_bind; [apply R_actionI; auto|intros; cbn [rv]; apply R_sendAck; auto; apply R_st; auto].
      * apply rv_bind; [apply R_actionI; auto|intros; cbn [rv]; now apply R_sendAck].
      * apply rv_bind; [apply R_releaseD; auto|]. intros s1 H1. apply rv_bind; [apply R_actionI; auto|].
        intros; cbn [rv]; apply R_sendAck; auto; apply R_st; auto.
      * apply rv_bind; [apply R_releaseD; auto|]. intros s1 H1. apply rv_bind; [apply R_actionI; auto|].
        intros; cbn [rv]; apply R_sendAck; auto; apply R_st; auto.
      * apply rv_bind; [apply R_actionI; auto|intros; cbn [rv]; now apply R_sendAck].
  - intros s3 H3. destruct (cBcast c && (cRD c <=? 2)); cbn [rv]; auto. apply R_unblock, R_st; auto.
Qed.

Lemma R_ack2 c me f t id k s : R s -> W (kVal k) -> Bd id -> rv (recvAck2 c me f t id k s).
Proof.
  intros H WK HB. unfold recvAck2, actionLA.
  destruct (kSt k); auto.
  - destruct (cBcast c); [|exact H]. destruct (getTicket id s) as [tk|]; [|exact H].
    match goal with |- rv (if ?b then _ else _) => destruct b end; [|cbn [rv]; now apply R_addAck].
    assert (X : R (setSt SValid (modTicket id (setVT (kVal k) (kTS k) false) (modTicket id (addAck f) s)))).
    { apply R_st. apply R_mod; auto. now apply R_addAck. }
    destruct (tOp tk); [cbn [rv]; now apply R_unblock|now apply R_complete].
  - destruct (getTicket id s) as [tk|]; [|exact H].
    assert (X : R (modTicket id (addAck f) s)) by now apply R_addAck.
    destruct (tOp tk); [exact X|].
    match goal with |- rv (if ?b then _ else _) => destruct b end; [|exact X].
    apply rv_bind; [apply R_complete, R_st; auto|]. intros s2 H2. cbn [rv]. destruct (cBcast c); auto. apply R_emit; cbn; auto.
  - destruct (getTicket id s) as [tk|]; [|exact H].
    assert (X : R (modTicket id (addAck f) s)) by now apply R_addAck.
    match goal with |- rv (if ?b then _ else _) => destruct b end; [|exact X].
    cbn [rv]. assert (Y : R (unblockReads (setSt SValid (modTicket id (addAck f) s)))) by (apply R_unblock, R_st; auto).
    destruct (cBcast c); auto. apply R_emit; cbn; auto.
  - destruct (getTicket id s) as [tk|]; [|exact H].
    assert (X : R (modTicket id (addAck f) s)) by now apply R_addAck.
    match goal with |- rv (if ?b then _ else _) => destruct b end; [|exact X].
    destruct (tOp tk); [cbn [rv]; apply R_unblock, R_st; auto|apply R_complete, R_st; auto].
Qed.

Lemma R_ack c me f t id s : R s -> Bd id -> rv (recvAck c me f t id s).
Proof.
  intros H HB. unfold recvAck. destruct (hKey s) as [k|] eqn:HK.
  - pose proof (r_key _ H k HK) as WK.
    destruct (cBcast c).
    + assert (REST : forall o : option tkt, rv (bind (match o with
                  | None => recordPending (newTicket id WRITE None t f true true) s
                  | Some _ => HOk s
                  end)
              (fun s1 =>
                 let s2 := modTicket id (addAck f) s1 in
                 match getTicket id s2 with
                 | None => HPanic s2
                 | Some t2 =>
                     match tVal t2, cRD c <=? 2 with
                     | Some _, true => completeWrite id (setSt SValid s2)
                     | _, _ => match tsCompare c t (kTS k) with
                               | Eq => recvAck2 c me f t id k s2
                               | _ => HOk s2
                               end
                     end
                 end))).
      { intros o. apply rv_bind.
        - destruct o; [exact H|]. apply R_record; cbn; auto. discriminate.
        - intros s1 H1. cbv zeta. assert (X : R (modTicket id (addAck f) s1)) by now apply R_addAck.
          destruct (getTicket id (modTicket id (addAck f) s1)) as [t2|]; [|exact X].
          assert (Y : rv match tsCompare c t (kTS k) with
                      | Eq => recvAck2 c me f t id k (modTicket id (addAck f) s1)
                      | _ => HOk (modTicket id (addAck f) s1) end).
          { destruct (tsCompare c t (kTS k)); auto. now apply R_ack2. }
          destruct (tVal t2); auto. destruct (cRD c <=? 2); auto. apply R_complete, R_st; auto. }
      destruct (getTicket id s) as [t0|] eqn:G; [destruct (tsCompare c t (kTS k)) eqn:CM|].
      * apply (REST (Some t0)).
      * now apply R_delete.
      * apply (REST (Some t0)).
      * apply (REST None).
    + destruct (tsCompare c t (kTS k)); auto. now apply R_ack2.
  - destruct (cBcast c); [|exact H]. apply rv_bind; [|intros; cbn [rv]; now apply R_addAck].
    destruct (getTicket id s); [exact H|]. apply R_record; cbn; auto. discriminate.
Qed.

Lemma R_val c t s : R s -> rv (recvVal c t s).
Proof.
  intros H. unfold recvVal. destruct (hKey s) as [k|]; [|exact H].
  destruct (tsCompare c t (kTS k)); auto. destruct (kSt k); auto.
  - cbn [rv]. apply R_unblock, R_st; auto.
  - cbn [rv]. apply R_st, R_unblock; auto.
  - apply rv_bind; [apply R_completeAll; auto|]. intros; cbn [rv]. apply R_st, R_unblock; auto.
Qed.

Lemma R_deadline c me id st s : R s -> rv (deadline c me id st s).
Proof.
  intros H. unfold deadline. destruct (getTicket id s) as [t0|] eqn:G; [|exact H].
  apply getTicket_some in G. destruct G as [G1 G2].
  assert (HB : Bd id) by (rewrite <- G2; apply (r_b _ H); auto).
  destruct (tInPQ t0); [|exact H].
  set (s0 := modTicket id (inPQ false) s).
  assert (H0 : R s0) by (apply R_mod; auto).
  destruct (tKeym (inPQ false t0)); [|exact H0].
  change (hKey s0) with (hKey s). destruct (hKey s) as [k|] eqn:HK; [|exact H0].
  pose proof (r_key _ H k HK) as WK.
  destruct (kSt k).
  - exact H0.
  - destruct st; [|exact H0]. apply rv_bind.
    + apply R_record; [exact H0|cbn; apply (r_tk _ H); auto|cbn; rewrite G2; exact HB|]. cbn. intros PS.
      assert (LV : In (tId t0) (live (hPend s))) by (apply live_in; exists t0; auto).
      split; [apply (r_q _ H); apply in_or_app; auto|].
      intros X. pose proof (r_nd _ H) as N. apply nodup_app_iff in N. destruct N as (_ & _ & N). eapply N; eauto.
    + intros s1 H1. cbn [rv]. apply R_emit; cbn; auto. apply R_st. apply R_mod; auto.
  - destruct (isWriteT (inPQ false t0)); [|exact H0]. apply rv_bind; [apply R_complete, R_st; auto|].
    intros s1 H1. cbn [rv]. destruct (cBcast c); [now apply R_unblock|]. destruct (hKey s1); auto. apply R_emit; cbn; auto.
  - cbn [rv]. assert (Y : R (unblockReads (setSt SValid s0))) by (apply R_unblock, R_st; auto).
    destruct (cBcast c); auto. apply R_emit; cbn; auto.
  - destruct (isWriteT (inPQ false t0)); [now apply R_complete|]. cbn [rv]. apply R_unblock, R_st; auto.
Qed.
End A.
