(** * Calls and streams: why calls return, which functions run, where uploads end *)

From Coq Require Import ZArith NArith List Bool Lia PeanoNat.
From Verif Require Import Rpc_Model Rpc_Spec Rpc_Proofs Rpc_Proofs2 Rpc_Proofs3 Rpc_Proofs4 Rpc_Proofs10 Rpc_Props.
Import ListNotations.
Local Open Scope Z_scope.

(** ** C58: the result of a call tells why it ended *)

(** ErrTimeout is returned only when a timeout fired for this call, the two cancel errors only
    when its cancel channel was closed, ErrShutdown only with the connection down. *)
Theorem C58_cause : forall cp os k r, In (ERet k r) (hist (run cp os init)) ->
  match r with
  | RTimeout => In (OTimeout k) os
  | RCancelled | RCancelSent => In (OCancel k) os
  | RShutdown => exists os1 os2, os = os1 ++ OShut k :: os2 /\ up (run cp os1 init) = false
  | RReply _ | RSendErr => True
  end.
Proof.
  intros cp os k r.
  assert (PC : forall os c, nth_error (cCalls (run cp os init)) k = Some c -> kPh c = PCancel -> In (OCancel k) os).
  { clear. apply (run_snoc_ind (fun os => forall c, nth_error (cCalls (run cp os init)) k = Some c -> kPh c = PCancel -> In (OCancel k) os)).
    - intros c H. destruct k; discriminate H.
    - intros os o IH c H HP. rewrite run_snoc in H. apply in_or_app.
      destruct (canc_step _ _ _ _ _ H HP) as [->|(c' & H' & HP')]; [right; left; reflexivity|left; eauto]. }
  revert os. apply (run_snoc_ind (fun os => In (ERet k r) (hist (run cp os init)) -> match r with
  | RTimeout => In (OTimeout k) os
  | RCancelled | RCancelSent => In (OCancel k) os
  | RShutdown => exists os1 os2, os = os1 ++ OShut k :: os2 /\ up (run cp os1 init) = false
  | RReply _ | RSendErr => True
  end)); [intros []|].
  intros os o IH H. rewrite run_snoc in H. destruct (ret_step _ _ _ _ _ H) as [X|X].
  - specialize (IH X). destruct r; auto using in_or_app.
    destruct IH as (os1 & os2 & -> & U). exists os1, (os2 ++ [o]). rewrite <- app_assoc. auto.
  - destruct r; cbn in X; auto using in_or_app.
    + subst. apply in_or_app. right. left. reflexivity.
    + subst. apply in_or_app. right. left. reflexivity.
    + destruct X as (c & Hc & HP). apply in_or_app. left. eauto.
    + destruct X as [-> U]. exists os, []. auto.
Qed.
Print Assumptions C58_cause.

(** A call whose cancel channel closes before it has returned returns one of the cancel errors,
    whatever else happens: no reply, no timeout. *)
Theorem C58_cancel_wins : forall cp os os' k m r, callLog k (hist (run cp os init)) = [ESubmit k m] ->
  In (ERet k r) (hist (run cp (os ++ OCancel k :: os') init)) -> r = RCancelled \/ r = RCancelSent.
Proof.
  intros cp os os' k m r HS H.
  assert (A : exists c, nth_error (cCalls (run cp (os ++ [OCancel k]) init)) k = Some c /\ cancd (kPh c)).
  { rewrite run_snoc. pose proof (r_tr _ (inv_3 _ (inv_run cp os)) k) as T. change (trC k (run cp os init)) with (callLog k (hist (run cp os init))) in T. rewrite HS in T.
    destruct (nth_error (cCalls (run cp os init)) k) as [c|] eqn:E; [|discriminate T].
    cbn [step]. unfold callCancel. rewrite E.
    destruct (kPh c) eqn:EP.
    - unfold ret, log. cbn. eexists. split; [apply upd_nth; exact E|]. rewrite Nat.eqb_refl. unfold cancd. cbn. auto.
    - cbn. eexists. split; [apply upd_nth; exact E|]. rewrite Nat.eqb_refl. unfold cancd. cbn. auto.
    - exists c. rewrite EP. unfold cancd. auto.
    - discriminate T. }
  replace (os ++ OCancel k :: os') with ((os ++ [OCancel k]) ++ os') in H by (rewrite <- app_assoc; reflexivity).
  assert (B : forall os', exists c, nth_error (cCalls (run cp ((os ++ [OCancel k]) ++ os') init)) k = Some c /\ cancd (kPh c)).
  { apply (run_snoc_ind (fun os' => exists c, nth_error (cCalls (run cp ((os ++ [OCancel k]) ++ os') init)) k = Some c /\ cancd (kPh c))).
    - rewrite app_nil_r. exact A.
    - intros l o (c & Hc & Hp). rewrite app_assoc, run_snoc. exact (cancd_step _ _ _ _ _ Hc Hp). }
  destruct (B os') as (c & Hc & Hp).
  destruct (ret_call _ k r (inv_3 _ (inv_run cp _)) H) as (c' & Hc' & Hp'). rewrite Hc in Hc'. injection Hc' as <-.
  unfold cancd in Hp. rewrite Hp' in Hp. destruct Hp as [X|[X|X]]; [discriminate X|injection X as ->; auto|injection X as ->; auto].
Qed.
Print Assumptions C58_cancel_wins.

(** ErrCancelChanClosed means that the request was not sent, and will not be. *)
Theorem C58_cancelled_unsent : forall cp os k p m, In (ERet k RCancelled) (hist (run cp os init)) ->
  ~ callFrame (run cp os init) k p m.
Proof.
  intros cp os k p m H F. destruct (sentInv_run cp os p m k F) as (c & Hc & _ & Hp).
  destruct (ret_call _ k _ (inv_3 _ (inv_run cp os)) H) as (c' & Hc' & Hp'). congruence.
Qed.
Print Assumptions C58_cancelled_unsent.

Definition threeEnds : list op :=
  [OCall 11 1 100 false; OCall 12 1 200 false; OCall 13 1 300 false; OCancel 0; OSendCall 1 true; OCancel 1; OTimeout 1; OSendCancel 1 true;
   OSendCall 2 true; OTimeout 2].
Example C58_cause_ex :
  let s := run cpx threeEnds init in
  map (fun k => callLog k (hist s)) [0; 1; 2]%nat =
  [[ESubmit 0 (mkMsg TRPC 0 11 1 0 100 0 false); ERet 0 RCancelled];
   [ESubmit 1 (mkMsg TRPC 0 12 1 0 200 0 false); ERet 1 RCancelSent];
   [ESubmit 2 (mkMsg TRPC 0 13 1 0 300 0 false); ERet 2 RTimeout]] /\
  callLog 1 (hist (run cpx (firstn 5 threeEnds) init)) = [ESubmit 1 (mkMsg TRPC 0 12 1 0 200 0 false)] /\
  map snd (sent s) = [ByCall 1; ByCancel 1; ByCall 2].
Proof. cbv zeta. set (s := run cpx threeEnds init). vm_compute in s. subst s. vm_compute. auto. Qed.

(** ** C59: only the function registered for that name and that kind of request *)

Theorem C59_registered : forall cp os p m, In (ERun p m) (hist (run cp os init)) ->
  exists k, serves (mTyp m) = Some k /\ In (ORegister k (mSvc m)) os.
Proof.
  intros cp os p m. revert os.
  apply (run_snoc_ind (fun os => In (ERun p m) (hist (run cp os init)) -> exists k, serves (mTyp m) = Some k /\ In (ORegister k (mSvc m)) os)).
  - intros [].
  - intros os o IH H. rewrite run_snoc in H. destruct (run_step _ _ _ _ _ H) as [X|(k & Hk & X)].
    + destruct (IH X) as (k & Hk & Hi). exists k. auto using in_or_app.
    + exists k. split; [exact Hk|]. apply in_or_app. left. exact (isReg_run _ _ _ _ X).
Qed.
Print Assumptions C59_registered.
Example C59_registered_ex :
  let s := run cpx [ORegister R1 1; ORegister R2 2; OCall 11 1 100 false; OCall 12 2 200 false; OSendCall 0 true; OSendCall 1 true;
    OSrvRead; OSrvRead; OStart 0; OStart 1] init in
  runsFor 0 (hist s) = [] /\ runsFor 1 (hist s) = [mkMsg TRPC 2 12 2 0 200 0 false] /\
  map mTyp (answersTo 0 (hist s)) = [TError].
Proof. vm_compute. auto. Qed.

(** ** C60: nothing of an upload follows its last part *)

Theorem C60_end_is_last : forall cp os i p p' m m',
  let s := run cp os init in
  nth_error (sent s) p = Some (m, ByStrm i) -> mTyp m = TUpEnd -> (p < p')%nat ->
  nth_error (sent s) p' = Some (m', ByStrm i) -> mTyp m' <> TUpMore /\ mTyp m' <> TUpEnd.
Proof. intros cp os i p p' m m' s. apply (end_run cp os). Qed.
Print Assumptions C60_end_is_last.
Example C60_end_is_last_ex :
  let s := run cpx [OUpBegin 5 1 10 true; OUpMore 0 11 false true; OUpMore 0 12 true true; OUpMore 0 13 false true; OUpMore 0 14 true true] init in
  map (fun x => mTyp (fst x)) (sent s) = [TUpBegin; TUpMore; TUpEnd].
Proof. vm_compute. reflexivity. Qed.

(** ** C61: what the client holds for a slow reader is bounded *)

Theorem C61_buffers : forall cp os c q, nth_error (cChan (run cp os init)) c = Some q -> (length q <= capUser cp)%nat.
Proof. intros cp os. exact (boxed_run cp os). Qed.
Print Assumptions C61_buffers.
Example C61_buffers_ex :
  let s := run (mkCaps 2 10) [OListen; OPush 1 9 1; OPush 1 9 2; OPush 1 9 3; OCliRead; OCliRead; OCliRead] init in
  map (map mBody) (cChan s) = [[1; 2]] /\ wireS s = [].
Proof. vm_compute. auto. Qed.
