(** * Proofs about calls and streams: the life of one job; part numbers *)

From Coq Require Import ZArith NArith List Bool Lia PeanoNat.
From Verif Require Import Rpc_Model Rpc_Proofs Rpc_Proofs2 Rpc_Proofs3 Rpc_Proofs4 Rpc_Proofs5.
Import ListNotations.
Local Open Scope Z_scope.

(** ** One job, one step *)

Definition downMsg (rq : msg) (i body : Z) (last : bool) : msg :=
  mkMsg (if i =? 0 then TDownBegin else if last then TDownEnd else TDownMore)
    (mSeq rq) (mCall rq) (mSvc rq) i body 0 (mDl rq).

Inductive jt (s : st) (p : nat) (j j' : job) : list event -> Prop :=
| jt_id : jPh j' = jPh j -> jNext j' = jNext j -> jt s p j j' []
| jt_start : jPh j = JSpawn -> runnable (mTyp (jReq j)) -> jPh j' = JRun 0 ->
    jNext j' = jNext j -> jt s p j j' [ERun p (jReq j)]
| jt_one : jPh j = JSpawn -> mTyp (jReq j) = TOneWay -> jPh j' = JOver ->
    jt s p j j' [ERun p (jReq j)]
| jt_err : forall evs, jPh j = JSpawn -> jPh j' = JErr ->
    (evs = [] \/ evs = [EAnswer p (errOf (jReq j))]) -> jt s p j j' evs
| jt_over : jPh j' = JOver -> jt s p j j' []
| jt_part : forall n c q m t, jPh j = JRun n -> mTyp (jReq j) = TUpBegin -> jStrm j = Some c ->
    nth_error (sChan s) c = Some ((q, m) :: t) -> (n = 0%nat -> q = p) -> mPart m = Z.of_nat n ->
    ((0 < n)%nat -> mCall m = mCall (jReq j)) -> isEnd (mTyp m) = false ->
    jPh j' = JRun (S n) -> jNext j' = jNext j -> jt s p j j' [EPart p m false]
| jt_ret : forall n c q m t b e, jPh j = JRun n -> mTyp (jReq j) = TUpBegin -> jStrm j = Some c ->
    nth_error (sChan s) c = Some ((q, m) :: t) -> (n = 0%nat -> q = p) -> mPart m = Z.of_nat n ->
    ((0 < n)%nat -> mCall m = mCall (jReq j)) ->
    (e = 0 -> isEnd (mTyp m) = true) ->
    jPh j' = JRet b e -> jt s p j j' [EPart p m (isEnd (mTyp m)); EClean p]
| jt_canc : forall n, jPh j = JRun n -> mTyp (jReq j) = TUpBegin -> jPh j' = JRet 0 errCtx ->
    jt s p j j' [EClean p]
| jt_recv : forall n c q m t, jPh j = JRun n -> mTyp (jReq j) = TReqBi -> jStrm j = Some c ->
    nth_error (sChan s) c = Some ((q, m) :: t) -> jPh j' = JRun n -> jNext j' = jNext j ->
    jt s p j j' [EPart p m (isEnd (mTyp m))]
| jt_down : forall n body last evs, jPh j = JRun n -> (mTyp (jReq j) = TReqDown \/ mTyp (jReq j) = TReqBi) ->
    jPh j' = JRun n -> jNext j' = jNext j + 1 ->
    (up s = true /\ evs = [EDown p (downMsg (jReq j) (jNext j) body last)] \/ up s = false /\ evs = []) ->
    jt s p j j' evs
| jt_end : forall n b e, jPh j = JRun n ->
    (mTyp (jReq j) = TRPC \/ mTyp (jReq j) = TReqDown \/ mTyp (jReq j) = TReqBi) ->
    jPh j' = JRet b e -> jNext j' = jNext j -> jt s p j j' [EEnd p b e]
| jt_reply : forall b e evs, jPh j = JRet b e -> jPh j' = JReplied ->
    (evs = [] \/ evs = [EAnswer p (replyOf (jReq j) b e)]) -> jNext j' = jNext j -> jt s p j j' evs.

Definition jtq (s s' : st) (p : nat) : Prop :=
  match nth_error (sJobs s) p, nth_error (sJobs s') p with
  | Some j, Some j' => jReq j' = jReq j /\ exists evs, jt s p j j' evs /\ tr p s' = tr p s ++ evs
  | None, Some j' => (jPh j' = JSpawn \/ jPh j' = JPart) /\ jNext j' = 0 /\ tr p s' = tr p s
  | None, None => tr p s' = tr p s
  | Some _, None => False
  end.

Lemma jtq_same : forall s s' p,
  match nth_error (sJobs s) p, nth_error (sJobs s') p with
  | Some a, Some b => jReq b = jReq a /\ jPh b = jPh a /\ jNext b = jNext a
  | None, None => True
  | _, _ => False
  end -> tr p s' = tr p s -> jtq s s' p.
Proof.
  intros s s' p H E. unfold jtq. destruct (nth_error (sJobs s) p), (nth_error (sJobs s') p); try contradiction; auto.
  destruct H as (H1 & H2 & H3). split; [exact H1|]. exists []. split; [apply jt_id; auto|].
  rewrite app_nil_r. exact E.
Qed.

(** regFlight and cancelCall leave jNext as well. *)
Definition softN (s s' : st) : Prop :=
  (forall q, match nth_error (sJobs s) q, nth_error (sJobs s') q with
             | Some a, Some b => jReq b = jReq a /\ jPh b = jPh a /\ jNext b = jNext a
             | None, None => True
             | _, _ => False
             end) /\ hist s' = hist s.

Lemma softN_refl : forall s, softN s s.
Proof. intros s. split; [|reflexivity]. intros q. destruct (nth_error (sJobs s) q); auto. Qed.

Lemma softN_upd : forall s s' p f, sJobs s' = upd p f (sJobs s) -> hist s' = hist s ->
  (forall j, jReq (f j) = jReq j /\ jPh (f j) = jPh j /\ jNext (f j) = jNext j) -> softN s s'.
Proof.
  intros s s' p f E1 E2 H. split; [|exact E2]. intros q. rewrite E1, nth_upd.
  destruct (nth_error (sJobs s) q) as [j|]; destruct (Nat.eqb p q); cbn; auto.
Qed.

Lemma softN_flight : forall p m c s, softN s (regFlight p m c s).
Proof.
  intros p m c s. unfold regFlight.
  dm; try (apply (softN_refl s));
  (eapply softN_upd; [reflexivity|reflexivity|]; intros; repeat split).
Qed.

Lemma softN_cancel : forall c s, softN s (cancelCall c s).
Proof.
  intros c s. unfold cancelCall. dm; try (apply (softN_refl s));
  (eapply softN_upd; [reflexivity|reflexivity|]; intros; repeat split).
Qed.

(** a soft change, then a change at p0 and events about p0. *)
Lemma jtq_upd : forall s s1 s' p0 f j0 evs, softN s s1 ->
  nth_error (sJobs s) p0 = Some j0 -> sJobs s' = upd p0 f (sJobs s1) -> hist s' = hist s1 ++ evs ->
  Forall (fun e => about p0 e = true) evs -> (forall j, jReq (f j) = jReq j) ->
  (forall j1, nth_error (sJobs s1) p0 = Some j1 -> jReq j1 = jReq j0 -> jPh j1 = jPh j0 -> jNext j1 = jNext j0 ->
     jt s p0 j0 (f j1) evs) ->
  forall p, jtq s s' p.
Proof.
  intros s s1 s' p0 f j0 evs [S1 S2] Hp E1 E2 HA HF HJ p.
  assert (tr p s' = tr p s ++ if Nat.eqb p0 p then evs else []) as ET.
  { unfold tr. rewrite E2, filter_app, S2. f_equal. destruct (Nat.eqb_spec p0 p) as [->|NE].
    - apply filter_all. exact HA.
    - apply filter_none. eapply Forall_impl; [|exact HA]. intros e He. apply (about_other p0 p e He). congruence. }
  destruct (Nat.eqb_spec p0 p) as [->|NE].
  - unfold jtq. specialize (S1 p). rewrite Hp in *. rewrite E1, nth_upd, Nat.eqb_refl.
    destruct (nth_error (sJobs s1) p) as [j1|] eqn:E; [|destruct S1]. destruct S1 as (A & B & C).
    cbn. split; [rewrite HF; exact A|]. exists evs. auto.
  - apply jtq_same; [|rewrite app_nil_r in ET; exact ET].
    rewrite E1, nth_upd. destruct (Nat.eqb_spec p0 p); [contradiction|]. apply S1.
Qed.

Lemma jtq_refl : forall s p, jtq s s p.
Proof. intros. apply jtq_same; [|reflexivity]. destruct (nth_error (sJobs s) p); auto. Qed.

Lemma tr_push : forall p m s, tr p (log (EPush m) s) = tr p s.
Proof. intros. unfold tr, log. cbn. rewrite filter_app. cbn. apply app_nil_r. Qed.

Lemma jtq_step : forall cp o s p, jtq s (step cp o s) p.
Proof.
  intros cp o s p. destruct (jobOp o) eqn:EO.
  2:{ destruct (same2_step cp o s EO) as [E1 _ E3 _ _ _]. apply jtq_same; [|apply E3].
      rewrite E1. destruct (nth_error (sJobs s) p); auto. }
  destruct o; try discriminate EO; clear EO; cbn [step].
  - (* OSrvRead *)
    unfold srvRead. destruct (srvUp s); [|apply jtq_refl].
    destruct (sBlk s); [apply jtq_refl|]. destruct (wireC s) as [|m r]; [apply jtq_refl|].
    assert (forall s' ph, (ph = JSpawn \/ ph = JPart) ->
      softN (setSJobs (sJobs s ++ [mkJob m ph false None 0]) (setWireC r s)) s' -> jtq s s' p) as HG.
    { intros s' ph HP [S1 S2]. specialize (S1 p). cbn in S1, S2. unfold jtq.
      assert (tr p s' = tr p s) as ET by (unfold tr; rewrite S2; reflexivity).
      destruct (nth_error (sJobs s) p) as [j|] eqn:Ej.
      - assert (nth_error (sJobs s ++ [mkJob m ph false None 0]) p = Some j) as K by (apply nth_app1; auto).
        rewrite K in S1. destruct (nth_error (sJobs s') p) as [j'|]; [|exact S1].
        destruct S1 as (A & B & C). split; [exact A|]. exists []. rewrite app_nil_r.
        split; [apply jt_id; auto|exact ET].
      - destruct (nth_error (sJobs s ++ [mkJob m ph false None 0]) p) as [j|] eqn:K.
        + apply nth_app1 in K. destruct K as [K|[-> <-]]; [congruence|].
          destruct (nth_error (sJobs s') (length (sJobs s))) as [j'|]; [|destruct S1].
          cbn in S1. destruct S1 as (A & B & C). rewrite B, C. auto.
        + destruct (nth_error (sJobs s') p); [destruct S1|exact ET]. }
    cbv zeta.
    destruct (mTyp m); try (apply (HG _ JSpawn); auto using softN_refl; fail);
    try (apply (HG _ JSpawn); auto using softN_flight; fail);
    (cbn; destruct (mget Z.eqb (mCall m) (sFl s)); apply (HG _ JPart); auto using softN_refl;
     split; [|reflexivity]; intros q; cbn; destruct (nth_error _ q); auto).
  - (* OStart *)
    unfold jobStart. destruct (sCrash s); [apply jtq_refl|].
    destruct (nth_error (sJobs s) p0) as [j|] eqn:Ej; [|apply jtq_refl].
    destruct (jPh j) eqn:Ep; try apply jtq_refl.
    assert (jtq s (respondErr p0 (jReq j) s) p) as HE.
    { unfold respondErr, sWrite. fold (errOf (jReq j)). destruct (up s).
      - eapply (jtq_upd s s _ p0 (setJPh JErr) j [_]); eauto using softN_refl; try st2.
        intros j1 K K1 K2 K3. eapply jt_err; eauto.
      - eapply (jtq_upd s s _ p0 (setJPh JErr) j []); eauto using softN_refl; try st2.
        + cbn. rewrite app_nil_r. reflexivity.
        + intros j1 K K1 K2 K3. eapply jt_err; eauto. }
    assert (forall k, runnable (mTyp (jReq j)) ->
      jtq s (if isReg k (mSvc (jReq j)) s
            then log (ERun p0 (jReq j)) (setJ p0 (setJPh (JRun 0)) (regFlight p0 (jReq j) (Some p0) s))
            else respondErr p0 (jReq j) s) p) as HG.
    { intros k HR. destruct (isReg k (mSvc (jReq j)) s); [|exact HE].
      eapply (jtq_upd s _ _ p0 (setJPh (JRun 0)) j [_]); eauto using softN_flight; try st2.
      intros j1 K K1 K2 K3. apply jt_start; auto. }
    assert (forall s1, softN s s1 -> jtq s (setJ p0 (setJPh JOver) s1) p) as HO.
    { intros s1 HS. eapply (jtq_upd s s1 _ p0 (setJPh JOver) j []); eauto; try st2.
      - cbn. rewrite app_nil_r. reflexivity.
      - intros. apply jt_over. reflexivity. }
    destruct (mTyp (jReq j)) eqn:ET; try (apply HG; exact I); try (apply HO; apply softN_refl).
    + destruct (isReg R1 (mSvc (jReq j)) s); [|exact HE].
      eapply (jtq_upd s s _ p0 (setJPh JOver) j [_]); eauto using softN_refl; try st2.
      intros. apply jt_one; auto.
    + apply HO. apply softN_cancel.
  - (* OErrClose *)
    unfold jobErrClose. destruct (sCrash s); [apply jtq_refl|].
    destruct (nth_error (sJobs s) p0) as [j|] eqn:Ej; [|apply jtq_refl].
    destruct (jPh j) eqn:Ep; try apply jtq_refl.
    eapply (jtq_upd s s _ p0 (setJPh JOver) j []); eauto using softN_refl; try st2.
    + cbn. rewrite app_nil_r. reflexivity.
    + intros. apply jt_over. reflexivity.
  - (* OUpPart *)
    unfold jobUpPart. destruct (sCrash s); [apply jtq_refl|].
    destruct (nth_error (sJobs s) p0) as [j|] eqn:Ej; [|apply jtq_refl].
    destruct (jPh j) eqn:Ep; try apply jtq_refl.
    destruct (mTyp (jReq j)) eqn:ET; try apply jtq_refl.
    destruct (jStrm j) as [c|] eqn:ES; [|apply jtq_refl].
    destruct (nth_error (sChan s) c) as [[|[q m] t]|] eqn:EC; try apply jtq_refl.
    set (s1 := setSChan _ s).
    assert (jtq s (crash s1) p) as HC.
    { apply jtq_same; [|reflexivity]. cbn. destruct (nth_error (sJobs s) p); auto. }
    destruct (Nat.eqb n 0 && negb (Nat.eqb q p0)) eqn:C1; [exact HC|].
    destruct (negb (mPart m =? Z.of_nat n)) eqn:C2; [exact HC|].
    destruct (Nat.ltb 0 n && negb (mCall m =? mCall (jReq j))) eqn:C3; [exact HC|].
    assert (n = 0%nat -> q = p0) as D1.
    { intros ->. cbn in C1. destruct (Nat.eqb_spec q p0); [auto|discriminate]. }
    assert (mPart m = Z.of_nat n) as D2.
    { destruct (Z.eqb_spec (mPart m) (Z.of_nat n)); [auto|discriminate]. }
    assert ((0 < n)%nat -> mCall m = mCall (jReq j)) as D3.
    { intros L. apply Nat.ltb_lt in L. rewrite L in C3. cbn in C3.
      destruct (Z.eqb_spec (mCall m) (mCall (jReq j))); [auto|discriminate]. }
    assert (forall b e, (e = 0 -> isEnd (mTyp m) = true) ->
      jtq s (setJ p0 (setJPh (JRet b e)) (log (EClean p0) (log (EPart p0 m (isEnd (mTyp m))) s1))) p) as HR.
    { intros b e HE. eapply (jtq_upd s s _ p0 (setJPh (JRet b e)) j [EPart p0 m (isEnd (mTyp m)); EClean p0]); eauto using softN_refl; try st2.
      - cbn. rewrite <- app_assoc. reflexivity.
      - repeat constructor; apply Nat.eqb_refl.
      - intros. eapply jt_ret; eauto. reflexivity. }
    destruct (Z.eqb_spec err 0) as [->|NE]; cbn [negb].
    + destruct (isEnd (mTyp m)) eqn:EE; [apply HR; auto|].
      eapply (jtq_upd s s _ p0 (setJPh (JRun (S n))) j [EPart p0 m false]); eauto using softN_refl; try st2.
      intros j1 K K1 K2 K3. eapply jt_part; eauto.
    + apply HR. contradiction.
  - (* OUpCanc *)
    unfold jobUpCanc. destruct (sCrash s); [apply jtq_refl|].
    destruct (nth_error (sJobs s) p0) as [j|] eqn:Ej; [|apply jtq_refl].
    destruct (jPh j) eqn:Ep; try apply jtq_refl.
    destruct (mTyp (jReq j)) eqn:ET; try apply jtq_refl.
    destruct (jCanc j); [|apply jtq_refl].
    eapply (jtq_upd s s _ p0 (setJPh (JRet 0 errCtx)) j [EClean p0]); eauto using softN_refl; try st2.
    intros. eapply jt_canc; eauto.
  - (* OBiRecv *)
    unfold jobBiRecv. destruct (sCrash s); [apply jtq_refl|].
    destruct (nth_error (sJobs s) p0) as [j|] eqn:Ej; [|apply jtq_refl].
    destruct (jPh j) eqn:Ep; try apply jtq_refl.
    destruct (mTyp (jReq j)) eqn:ET; try apply jtq_refl.
    destruct (jStrm j) as [c|] eqn:ES; [|apply jtq_refl].
    destruct (nth_error (sChan s) c) as [[|[q m] t]|] eqn:EC; try apply jtq_refl.
    eapply (jtq_upd s s _ p0 (fun x => x) j [EPart p0 m (isEnd (mTyp m))]); eauto using softN_refl; try st2.
    + cbn. clear. generalize (sJobs s) as l. intros l. revert p0.
      induction l as [|x r IH]; intros [|p]; cbn; auto. f_equal. apply IH.
    + intros j1 K K1 K2 K3. rewrite Ej in K. injection K as <-. eapply jt_recv; eauto.
  - (* ODown *)
    unfold jobDown. destruct (sCrash s); [apply jtq_refl|].
    destruct (nth_error (sJobs s) p0) as [j|] eqn:Ej; [|apply jtq_refl].
    cbv zeta. fold (downMsg (jReq j) (jNext j) body last).
    assert (forall n, jPh j = JRun n -> mTyp (jReq j) = TReqDown \/ mTyp (jReq j) = TReqBi ->
      jtq s (setJ p0 (setJNext (jNext j + 1))
        (sWrite (downMsg (jReq j) (jNext j) body last) (EDown p0 (downMsg (jReq j) (jNext j) body last)) s)) p) as HG.
    { intros n Hn Ht. unfold sWrite. destruct (up s) eqn:EU.
      - eapply (jtq_upd s s _ p0 (setJNext (jNext j + 1)) j [_]); eauto using softN_refl; try st2.
        intros j1 K K1 K2 K3. rewrite Ej in K. injection K as <-. eapply jt_down; eauto.
      - eapply (jtq_upd s s _ p0 (setJNext (jNext j + 1)) j []); eauto using softN_refl; try st2.
        + cbn. rewrite app_nil_r. reflexivity.
        + intros j1 K K1 K2 K3. rewrite Ej in K. injection K as <-. eapply (jt_down _ _ _ _ n 0 true); eauto. }
    destruct (jPh j) eqn:Ep; try apply jtq_refl.
    destruct (mTyp (jReq j)) eqn:ET; try apply jtq_refl; eapply HG; eauto.
  - (* OEnd *)
    unfold jobEnd. destruct (sCrash s); [apply jtq_refl|].
    destruct (nth_error (sJobs s) p0) as [j|] eqn:Ej; [|apply jtq_refl].
    assert (forall n, jPh j = JRun n -> mTyp (jReq j) = TRPC \/ mTyp (jReq j) = TReqDown \/ mTyp (jReq j) = TReqBi ->
      jtq s (log (EEnd p0 body err) (setJ p0 (setJPh (JRet body err)) s)) p) as HG.
    { intros n Hn Ht. eapply (jtq_upd s s _ p0 (setJPh (JRet body err)) j [_]); eauto using softN_refl; try st2.
      intros j1 K K1 K2 K3. eapply jt_end; eauto. }
    destruct (jPh j) eqn:Ep; try apply jtq_refl.
    destruct (mTyp (jReq j)) eqn:ET; try apply jtq_refl; eapply HG; eauto.
  - (* OReply *)
    unfold jobReply. destruct (sCrash s); [apply jtq_refl|].
    destruct (nth_error (sJobs s) p0) as [j|] eqn:Ej; [|apply jtq_refl].
    destruct (jPh j) eqn:Ep; try apply jtq_refl. cbv zeta. fold (replyOf (jReq j) body err).
    unfold sWrite. destruct (up s).
    + eapply (jtq_upd s s _ p0 (setJPh JReplied) j [_]); eauto using softN_refl; try st2.
      intros. eapply jt_reply; eauto.
    + eapply (jtq_upd s s _ p0 (setJPh JReplied) j []); eauto using softN_refl; try st2.
      * cbn. rewrite app_nil_r. reflexivity.
      * intros. eapply jt_reply; eauto.
  - (* OClean *)
    unfold jobClean. destruct (sCrash s); [apply jtq_refl|].
    destruct (nth_error (sJobs s) p0) as [j|] eqn:Ej; [|apply jtq_refl].
    destruct (jPh j) eqn:Ep; try apply jtq_refl.
    eapply (jtq_upd s _ _ p0 (setJPh JOver) j []); eauto using softN_cancel; try st2.
    + cbn. rewrite app_nil_r. reflexivity.
    + intros. apply jt_over. reflexivity.
  - (* ODeadline *)
    unfold jobDeadline. destruct (sCrash s); [apply jtq_refl|].
    destruct (nth_error (sJobs s) p0) as [j|] eqn:Ej; [|apply jtq_refl].
    destruct (jPh j) eqn:Ep; try apply jtq_refl. destruct (mDl (jReq j)); [|apply jtq_refl].
    eapply (jtq_upd s s _ p0 (setCanc true) j []); eauto using softN_refl; try st2.
    + cbn. rewrite app_nil_r. reflexivity.
    + intros. apply jt_id; cbn; congruence.
  - (* OPush *)
    unfold push. destruct (sCrash s); [apply jtq_refl|]. cbv zeta. unfold sWrite.
    destruct (up s); [|apply jtq_refl].
    apply jtq_same; [|rewrite tr_push; reflexivity]. cbn. destruct (nth_error (sJobs s) p); auto.
Qed.

(** ** The messages in the stream channels are the ones that were read *)

Definition tagged (s : st) : Prop :=
  (forall c q x m, nth_error (sChan s) c = Some q -> In (x, m) q ->
     exists j, nth_error (sJobs s) x = Some j /\ jReq j = m) /\
  (forall oc x m, sBlk s = Some (oc, (x, m)) -> exists j, nth_error (sJobs s) x = Some j /\ jReq j = m).

Definition reqsKeep (s s' : st) : Prop :=
  forall x j, nth_error (sJobs s) x = Some j -> exists j', nth_error (sJobs s') x = Some j' /\ jReq j' = jReq j.

Lemma reqsKeep_step : forall cp o s, reqsKeep s (step cp o s).
Proof.
  intros cp o s x j Hx. pose proof (jtq_step cp o s x) as H. unfold jtq in H. rewrite Hx in H.
  destruct (nth_error (sJobs (step cp o s)) x) as [j'|]; [|destruct H]. exists j'. split; [reflexivity|apply H].
Qed.

Lemma tagged_keep : forall s s', tagged s -> reqsKeep s s' ->
  (forall c q x m, nth_error (sChan s') c = Some q -> In (x, m) q ->
     (exists c' q', nth_error (sChan s) c' = Some q' /\ In (x, m) q') \/
     (exists oc, sBlk s = Some (oc, (x, m))) \/
     exists j, nth_error (sJobs s') x = Some j /\ jReq j = m) ->
  (forall oc x m, sBlk s' = Some (oc, (x, m)) -> (exists oc', sBlk s = Some (oc', (x, m))) \/
     exists j, nth_error (sJobs s') x = Some j /\ jReq j = m) -> tagged s'.
Proof.
  intros s s' [H1 H2] HK HC HB.
  assert (forall x m, (exists j, nth_error (sJobs s) x = Some j /\ jReq j = m) ->
           exists j, nth_error (sJobs s') x = Some j /\ jReq j = m) as HL.
  { intros x m (j & K1 & K2). destruct (HK x j K1) as (j' & L1 & L2). exists j'. split; congruence. }
  split.
  - intros c q x m K1 K2. destruct (HC c q x m K1 K2) as [(c' & q' & L1 & L2)|[(oc & L)|L]]; eauto.
  - intros oc x m K. destruct (HB oc x m K) as [(oc' & L)|L]; eauto.
Qed.

Lemma chan_flight : forall p m0 cn s c q x m, nth_error (sChan (regFlight p m0 cn s)) c = Some q -> In (x, m) q ->
  (exists c' q', nth_error (sChan s) c' = Some q' /\ In (x, m) q') \/ (x = p /\ m = m0).
Proof.
  intros p m0 cn s c q x m. unfold regFlight.
  destruct (mget Z.eqb (mCall m0) (sFl s)); [cbn; eauto|].
  destruct (mTyp m0); cbn; eauto; intros K1 K2; apply nth_app1 in K1; destruct K1 as [K1|[-> <-]]; eauto;
  (destruct K2 as [K2|[]]; injection K2 as <- <-; auto).
Qed.

Lemma blk_flight : forall p m0 cn s, sBlk (regFlight p m0 cn s) = sBlk s.
Proof. intros. unfold regFlight. destruct (mget Z.eqb (mCall m0) (sFl s)); [|destruct (mTyp m0)]; reflexivity. Qed.

Lemma chan_cancel : forall c s, sChan (cancelCall c s) = sChan s /\ sBlk (cancelCall c s) = sBlk s.
Proof. intros. unfold cancelCall. destruct (mget Z.eqb c (sFl s)) as [cc|]; [|auto]. destruct (ccCanc cc); auto. Qed.

Lemma tagged_step : forall cp o s, tagged s -> tagged (step cp o s).
Proof.
  intros cp o s HT. pose proof (reqsKeep_step cp o s) as HK.
  assert (forall s', s' = step cp o s -> sChan s' = sChan s -> sBlk s' = sBlk s -> tagged (step cp o s)) as HS.
  { intros s' -> E1 E2. apply (tagged_keep s); auto; intros; rewrite ?E1, ?E2 in *; eauto. }
  assert (forall s' c0 , s' = step cp o s -> sChan s' = upd c0 (@tl (nat * msg)) (sChan s) -> sBlk s' = sBlk s -> tagged (step cp o s)) as HTl.
  { intros s' c0 -> E1 E2. apply (tagged_keep s); auto; intros; rewrite ?E1, ?E2 in *; eauto.
    rewrite nth_upd in H. destruct (Nat.eqb c0 c); [|eauto].
    destruct (nth_error (sChan s) c) as [[|y r]|] eqn:E; cbn in H; try discriminate; injection H as <-; [destruct H0|].
    left. exists c, (y :: r). cbn. auto. }
  destruct (jobOp o) eqn:EO.
  2:{ destruct (same2_step cp o s EO) as [E1 _ _ _ _ _].
      assert (o <> OSrvPart \/ o = OSrvPart) as [NE| ->]
        by (destruct o; (left; discriminate) || (right; reflexivity)).
      - destruct (srv_cliOp cp o s EO NE) as (_ & F2 & F3 & _). eapply HS; eauto.
      - cbn [step] in *. unfold srvPart in *. destruct (srvUp s); [|exact HT].
        destruct (sBlk s) as [[[c|] e]|] eqn:EB; try exact HT.
        destruct (nth_error (sChan s) c) as [q|] eqn:EQ; [|exact HT].
        destruct (Nat.ltb (length q) (capStrm cp)); [|exact HT].
        apply (tagged_keep s); auto; [|discriminate].
        cbn. intros c' q' x m K1 K2. rewrite nth_upd in K1. destruct (Nat.eqb_spec c c') as [<-|NE]; [|eauto].
        rewrite EQ in K1. injection K1 as <-. apply in_app1 in K2. destruct K2 as [K2| ->]; eauto. }
  destruct o; try discriminate EO; clear EO; cbn [step] in *.
  - (* OSrvRead *)
    unfold srvRead in *. destruct (srvUp s); [|exact HT].
    destruct (sBlk s) eqn:EB; [exact HT|]. destruct (wireC s) as [|m r] eqn:EW; [exact HT|].
    cbv zeta in *.
    assert (forall ph, nth_error (sJobs s ++ [mkJob m ph false None 0]) (length (sJobs s)) =
              Some (mkJob m ph false None 0)) as HL by (intros; apply nth_app1; auto).
    assert (tagged (regFlight (length (sJobs s)) m None
              (setSJobs (sJobs s ++ [mkJob m JSpawn false None 0]) (setWireC r s)))) as HF.
    { destruct (softN_flight (length (sJobs s)) m None
        (setSJobs (sJobs s ++ [mkJob m JSpawn false None 0]) (setWireC r s))) as [S1 _].
      cbn in S1.
      apply (tagged_keep s); auto.
      - intros x j Hx. specialize (S1 x). rewrite (nth_app_l _ _ _ _ Hx) in S1.
        destruct (nth_error (sJobs (regFlight _ _ _ _)) x) as [j'|]; [|destruct S1]. exists j'. split; [reflexivity|apply S1].
      - intros c q x m' K1 K2. destruct (chan_flight _ _ _ _ _ _ _ _ K1 K2) as [K|[-> ->]]; [auto|].
        right. right. specialize (S1 (length (sJobs s))). rewrite HL in S1.
        destruct (nth_error (sJobs (regFlight _ _ _ _)) (length (sJobs s))) as [j'|]; [|destruct S1].
        exists j'. split; [reflexivity|apply S1].
      - rewrite blk_flight. cbn. rewrite EB. discriminate. }
    destruct (mTyp m); try exact HF; try (apply (HS _ eq_refl); auto; fail);
    (cbn in *; destruct (mget Z.eqb (mCall m) (sFl s)); [|apply (HS _ eq_refl); auto];
     apply (tagged_keep s); auto; [eauto|]; cbn; intros oc x m' K; injection K as <- <- <-;
     right; eexists; split; [apply HL|reflexivity]).
  - (* OStart *)
    unfold jobStart in *. destruct (sCrash s) eqn:ECr; [exact HT|].
    destruct (nth_error (sJobs s) p) as [j|] eqn:Ej; [|exact HT].
    destruct (jPh j) eqn:Ep; try exact HT.
    assert (forall k, 
      (if isReg k (mSvc (jReq j)) s
            then log (ERun p (jReq j)) (setJ p (setJPh (JRun 0)) (regFlight p (jReq j) (Some p) s))
            else respondErr p (jReq j) s) = jobStart p s ->
      tagged (if isReg k (mSvc (jReq j)) s
            then log (ERun p (jReq j)) (setJ p (setJPh (JRun 0)) (regFlight p (jReq j) (Some p) s))
            else respondErr p (jReq j) s)) as HG.
    { intros k E.
      destruct (isReg k (mSvc (jReq j)) s).
      - assert (jobStart p s = step cp (OStart p) s) as E' by reflexivity.
        apply (tagged_keep s); auto.
        + rewrite E, E'. apply reqsKeep_step.
        + cbn. intros c q x m K1 K2. destruct (chan_flight _ _ _ _ _ _ _ _ K1 K2) as [K|[-> ->]]; [auto|].
          right. right. destruct (reqsKeep_step cp (OStart p) s p j Ej) as (j' & L1 & L2).
          rewrite <- E', <- E in L1. exists j'. auto.
        + cbn. rewrite blk_flight. eauto.
      - unfold respondErr, sWrite. destruct (up s); exact HT + (apply (tagged_keep s); auto; try (intros; cbn in *; eauto; fail)).
        all: intros x y Hx; cbn; rewrite nth_upd, Hx; destruct (Nat.eqb p x); eexists; split; reflexivity. }
    assert (forall s1, sChan s1 = sChan s -> sBlk s1 = sBlk s -> reqsKeep s s1 -> tagged s1) as HS2.
    { intros s1 F1 F2 F3. apply (tagged_keep s); auto; intros; rewrite ?F1, ?F2 in *; eauto. }
    destruct (mTyp (jReq j)) eqn:ET.
    all: try (apply HG; unfold jobStart; fail).
    all: try (apply HG; unfold jobStart; rewrite ECr, Ej, Ep, ET; reflexivity).
    all: apply HS2; auto.
    all: try reflexivity.
    all: try (destruct (isReg R1 (mSvc (jReq j)) s); [reflexivity|]; unfold respondErr, sWrite; destruct (up s); reflexivity).
    all: try (cbn; apply chan_cancel).
  - unfold jobErrClose in *. dm; try exact HT; (eapply HS; [reflexivity| |]; reflexivity).
  - unfold jobUpPart in *. destruct (sCrash s); [exact HT|].
    destruct (nth_error (sJobs s) p) as [j|] eqn:Ej; [|exact HT].
    destruct (jPh j) eqn:Ep; try exact HT.
    destruct (mTyp (jReq j)) eqn:ET; try exact HT.
    destruct (jStrm j) as [c|] eqn:ES; [|exact HT].
    destruct (nth_error (sChan s) c) as [[|[q m] t]|] eqn:EC; try exact HT.
    dm; (eapply (HTl _ c); [reflexivity| |]; reflexivity).
  - unfold jobUpCanc in *. dm; try exact HT; (eapply HS; [reflexivity| |]; reflexivity).
  - unfold jobBiRecv in *. destruct (sCrash s); [exact HT|].
    destruct (nth_error (sJobs s) p) as [j|] eqn:Ej; [|exact HT].
    destruct (jPh j) eqn:Ep; try exact HT.
    destruct (mTyp (jReq j)) eqn:ET; try exact HT.
    destruct (jStrm j) as [c|] eqn:ES; [|exact HT].
    destruct (nth_error (sChan s) c) as [[|[q m] t]|] eqn:EC; try exact HT.
    eapply (HTl _ c); [reflexivity| |]; reflexivity.
  - unfold jobDown, sWrite in *. dm; try exact HT; (eapply HS; [reflexivity| |]; reflexivity).
  - unfold jobEnd in *. dm; try exact HT; (eapply HS; [reflexivity| |]; reflexivity).
  - unfold jobReply, sWrite in *. dm; try exact HT; (eapply HS; [reflexivity| |]; reflexivity).
  - unfold jobClean in *. destruct (sCrash s); [exact HT|].
    destruct (nth_error (sJobs s) p) as [j|] eqn:Ej; [|exact HT].
    destruct (jPh j) eqn:Ep; try exact HT.
    eapply HS; [reflexivity| |]; cbn; apply chan_cancel.
  - unfold jobDeadline in *. dm; try exact HT; (eapply HS; [reflexivity| |]; reflexivity).
  - unfold push, sWrite in *. dm; try exact HT; (eapply HS; [reflexivity| |]; reflexivity).
Qed.

Lemma tagged_run : forall cp os, tagged (run cp os init).
Proof.
  intros cp os. apply (run_snoc_ind (fun os => tagged (run cp os init))).
  - split; cbn; [|discriminate]. intros c q x m K. destruct c; discriminate.
  - intros l o IH. rewrite run_snoc. apply tagged_step. exact IH.
Qed.
