(** * Calls and streams over one connection: the theorems

    cp ranges over all buffer sizes, os over all schedules. *)

From Coq Require Import ZArith NArith List Bool Lia PeanoNat.
From Verif Require Import Rpc_Model Rpc_Spec Rpc_Proofs Rpc_Proofs2 Rpc_Proofs3 Rpc_Proofs4 Rpc_Proofs5
  Rpc_Proofs6 Rpc_Proofs7 Rpc_Proofs8 Rpc_Proofs9.
Import ListNotations.
Local Open Scope Z_scope.

(** the sizes in the code. *)
Definition cpx : caps := mkCaps (Z.to_nat 100) (Z.to_nat 10000).

(** ** From the specification to the invariants *)

Lemma frame_sent : forall s p m, frame s p m <-> exists o, nth_error (sent s) p = Some (m, o).
Proof.
  intros s p m. unfold frame. rewrite nth_error_map.
  destruct (nth_error (sent s) p) as [[x o]|]; cbn; split.
  - intros E. injection E as ->. eauto.
  - intros (o' & E). injection E as -> _. reflexivity.
  - discriminate.
  - intros (o & E). discriminate.
Qed.

Lemma callFrame_frame : forall s k p m, callFrame s k p m -> frame s p m.
Proof. intros s k p m H. apply frame_sent. eexists. exact H. Qed.

Lemma frame_job : forall s p m, inv2 s -> frame s p m ->
  match nth_error (sJobs s) p with Some j => jReq j = m | None => tr p s = [] end.
Proof.
  intros s p m [F V _] H. unfold frame in H. rewrite F in H. specialize (V p).
  destruct (nth_error (sJobs s) p) as [j|] eqn:E; [|exact V].
  rewrite nth_error_app1 in H.
  - rewrite nth_error_map, E in H. cbn in H. injection H as <-. reflexivity.
  - rewrite map_length. apply nth_error_Some. congruence.
Qed.

Lemma job_frame : forall s p j, inv2 s -> nth_error (sJobs s) p = Some j -> frame s p (jReq j).
Proof.
  intros s p j [F _ _] H. unfold frame. rewrite F, nth_error_app1.
  - rewrite nth_error_map, H. reflexivity.
  - rewrite map_length. apply nth_error_Some. congruence.
Qed.

Lemma notCancelled_no : forall c s, notCancelled c s <-> noCancel c s.
Proof.
  intros c s. unfold notCancelled, noCancel, cancMsg, frame. split; intros H K; apply H; clear H.
  - destruct K as (m & K1 & K2). apply In_nth_error in K1. destruct K1 as (p & K1). eauto.
  - destruct K as (p & m & K1 & K2). apply nth_error_In in K1. eauto.
Qed.

Lemma proper_orderly : forall s, properUploads s -> orderly s.
Proof.
  intros s H p m K1 K2. destruct (H p m K1 K2) as [H1 H2]. split; [apply notCancelled_no; exact H1|exact H2].
Qed.

Lemma full_complete : forall l, full l -> complete l.
Proof.
  intros l (l' & m & E & H1 & H2). exists l', m. split; [exact E|]. split.
  - destruct (mTyp m); try discriminate H2. reflexivity.
  - eapply Forall_impl; [|exact H1]. intros x Hx Ex. cbv beta in Hx. rewrite Ex in Hx. discriminate Hx.
Qed.

(** ** The record of one message *)

(** with an answer, the record says what happened. *)
Lemma answer_cases : forall s p r, inv2 s -> In (EAnswer p r) (hist s) ->
  exists j, nth_error (sJobs s) p = Some j /\ frame s p (jReq j) /\
    ((answerable (mTyp (jReq j)) /\ tr p s = [EAnswer p (errOf (jReq j))] /\ r = errOf (jReq j)) \/
     (runnable (mTyp (jReq j)) /\ exists b b0 e0, Forall (bodyEv p (jReq j)) b /\
        tr p s = ERun p (jReq j) :: b ++ [fin p (jReq j) b0 e0; EAnswer p (replyOf (jReq j) b0 e0)] /\
        r = replyOf (jReq j) b0 e0)).
Proof.
  intros s p r H2 H. apply answer_tr in H. pose proof (v_tr _ H2 p) as V.
  destruct (nth_error (sJobs s) p) as [j|] eqn:E; [|rewrite V in H; destruct H].
  exists j. split; [reflexivity|]. split; [apply job_frame; assumption|].
  assert (forall b, Forall (bodyEv p (jReq j)) b -> ~ In (EAnswer p r) b) as NB.
  { intros b Hb K. rewrite Forall_forall in Hb. apply Hb in K. exact K. }
  assert (forall b0 e0, EAnswer p r <> fin p (jReq j) b0 e0) as NF.
  { intros b0 e0. unfold fin. destruct (mTyp (jReq j)); discriminate. }
  assert (forall u, skelErr u p (jReq j) (tr p s) ->
    answerable (mTyp (jReq j)) /\ tr p s = [EAnswer p (errOf (jReq j))] /\ r = errOf (jReq j)) as CE.
  { intros u (A & [[_ K]|K]); rewrite K in H; [destruct H|]. destruct H as [H|[]]. injection H as H. auto. }
  assert (forall u, skelAns u p (jReq j) (tr p s) ->
    runnable (mTyp (jReq j)) /\ exists b b0 e0, Forall (bodyEv p (jReq j)) b /\
        tr p s = ERun p (jReq j) :: b ++ [fin p (jReq j) b0 e0; EAnswer p (replyOf (jReq j) b0 e0)] /\
        r = replyOf (jReq j) b0 e0) as CA.
  { intros u (A & b & b0 & e0 & Hb & [[_ K]|K]); split; auto; exists b, b0, e0; split; auto; split; auto;
      rewrite K in H; destruct H as [H|H]; try discriminate H; apply in_app_iff in H;
      destruct H as [H|H]; try (destruct (NB b Hb H)); destruct H as [H|H];
      try (symmetry in H; destruct (NF _ _ H)); destruct H as [H|[]] || destruct H.
    injection H as H. auto. }
  unfold skel in V. destruct (jPh j).
  - destruct V as [V _]. rewrite V in H. destruct H.
  - rewrite V in H. destruct H.
  - destruct V as (_ & b & Hb & K). rewrite K in H. destruct H as [H|H]; [discriminate H|]. destruct (NB b Hb H).
  - destruct V as (_ & b & Hb & K). rewrite K in H. destruct H as [H|H]; [discriminate H|].
    apply in_app_iff in H. destruct H as [H|[H|[]]]; [destruct (NB b Hb H)|].
    symmetry in H. destruct (NF _ _ H).
  - right. eapply CA. exact V.
  - left. eapply CE. exact V.
  - destruct V as [[_ V]|[[_ V]|[V|V]]].
    + rewrite V in H. destruct H.
    + rewrite V in H. destruct H as [H|[]]. discriminate H.
    + left. eapply CE. exact V.
    + right. eapply CA. exact V.
Qed.

Lemma down_typ : forall s p r, inv2 s -> In (EDown p r) (hist s) ->
  exists j, nth_error (sJobs s) p = Some j /\ (mTyp (jReq j) = TReqDown \/ mTyp (jReq j) = TReqBi) /\
    mSeq r = mSeq (jReq j) /\ mCall r = mCall (jReq j).
Proof.
  intros s p r H2 H. assert (In (EDown p r) (tr p s)) as HT
    by (unfold tr; apply filter_In; cbn; rewrite Nat.eqb_refl; auto).
  pose proof (v_tr _ H2 p) as V.
  destruct (nth_error (sJobs s) p) as [j|] eqn:E; [|rewrite V in HT; destruct HT].
  exists j. split; [reflexivity|].
  assert (forall b, Forall (bodyEv p (jReq j)) b -> In (EDown p r) b ->
    (mTyp (jReq j) = TReqDown \/ mTyp (jReq j) = TReqBi) /\ mSeq r = mSeq (jReq j) /\ mCall r = mCall (jReq j)) as CB.
  { intros b Hb K. rewrite Forall_forall in Hb. apply Hb in K. cbn in K. tauto. }
  assert (forall b0 e0, EDown p r <> fin p (jReq j) b0 e0) as NF.
  { intros b0 e0. unfold fin. destruct (mTyp (jReq j)); discriminate. }
  assert (forall u, ~ skelErr u p (jReq j) (tr p s)) as CE.
  { intros u (A & [[_ K]|K]); rewrite K in HT; [destruct HT|]. destruct HT as [HT|[]]. discriminate HT. }
  assert (forall u, skelAns u p (jReq j) (tr p s) ->
    (mTyp (jReq j) = TReqDown \/ mTyp (jReq j) = TReqBi) /\ mSeq r = mSeq (jReq j) /\ mCall r = mCall (jReq j)) as CA.
  { intros u (A & b & b0 & e0 & Hb & [[_ K]|K]); rewrite K in HT; destruct HT as [HT|HT]; try discriminate HT;
      apply in_app_iff in HT; destruct HT as [HT|HT]; try (eapply CB; eassumption); destruct HT as [HT|HT];
      try (symmetry in HT; destruct (NF _ _ HT)); try (destruct HT as [HT|[]]; discriminate HT); destruct HT. }
  unfold skel in V. destruct (jPh j).
  - destruct V as [V _]. rewrite V in HT. destruct HT.
  - rewrite V in HT. destruct HT.
  - destruct V as (_ & b & Hb & K). rewrite K in HT. destruct HT as [HT|HT]; [discriminate HT|]. eapply CB; eassumption.
  - destruct V as (_ & b & Hb & K). rewrite K in HT. destruct HT as [HT|HT]; [discriminate HT|].
    apply in_app_iff in HT. destruct HT as [HT|[HT|[]]]; [eapply CB; eassumption|].
    symmetry in HT. destruct (NF _ _ HT).
  - eapply CA. exact V.
  - destruct (CE _ V).
  - destruct V as [[_ V]|[[_ V]|[V|V]]].
    + rewrite V in HT. destruct HT.
    + rewrite V in HT. destruct HT as [HT|[]]. discriminate HT.
    + destruct (CE _ V).
    + eapply CA. exact V.
Qed.

(** ** C58: a call gets the reply to its own request *)

(** SendAndGetReply number k returns at most once, after it was called. *)
Theorem C58_returns_once : forall cp os k,
  let h := hist (run cp os init) in
  callLog k h = [] \/ exists m, callLog k h = [ESubmit k m] \/ exists r, callLog k h = [ESubmit k m; ERet k r].
Proof.
  intros cp os k h. pose proof (r_tr _ (inv_3 _ (inv_run cp os)) k) as H.
  change (callLog k h) with (trC k (run cp os init)).
  destruct (nth_error (cCalls (run cp os init)) k) as [c|]; [right|left; exact H].
  exists (setSeqM 0 (kMsg c)). destruct (kPh c); rewrite H; eauto.
Qed.
Print Assumptions C58_returns_once.

Lemma ret_call : forall s k r, inv3 s -> In (ERet k r) (hist s) ->
  exists c, nth_error (cCalls s) k = Some c /\ kPh c = PRet r.
Proof.
  intros s k r H3 H. pose proof (r_tr _ H3 k) as HR.
  assert (In (ERet k r) (trC k s)) as HT by (unfold trC; apply filter_In; cbn; rewrite Nat.eqb_refl; auto).
  destruct (nth_error (cCalls s) k) as [c|]; [|rewrite HR in HT; destruct HT].
  exists c. split; [reflexivity|]. rewrite HR in HT. destruct HT as [HT|HT]; [discriminate HT|].
  destruct (kPh c); try (destruct HT; fail). destruct HT as [HT|[]]. injection HT as ->. reflexivity.
Qed.

(** the reply a call returns has the Seqno of its request and was written by the
    server: as an answer, as a part of a download, or by Server.SendMessage. *)
Theorem C58_reply_source : forall cp os k r,
  let s := run cp os init in
  In (ERet k (RReply r)) (hist s) ->
  exists p m, callFrame s k p m /\ In (ESubmit k (setSeqM 0 m)) (hist s) /\ mSeq r = mSeq m /\
    In r (serverWrote (hist s)).
Proof.
  intros cp os k r s H. destruct (inv_run cp os) as [H1 _ H3]. fold s in H1, H3.
  destruct (ret_call s k _ H3 H) as (c & Hc & Hp).
  destruct (r_ret _ H3 k c r Hc Hp) as (p & m & K1 & K2 & K3). exists p, m.
  split; [exact K1|]. split; [|split; [exact K2|]].
  - destruct (i_fcall _ H1 p m k K1) as (_ & c' & Hc' & <-). rewrite Hc in Hc'. injection Hc' as <-.
    pose proof (r_tr _ H3 k) as HR. rewrite Hc in HR.
    assert (In (ESubmit k (setSeqM 0 (kMsg c))) (trC k s)) as HI by (rewrite HR; left; reflexivity).
    unfold trC in HI. apply filter_In in HI. apply HI.
  - unfold serverWrote. apply in_flat_map.
    destruct K3 as [K3|(q & [K3|K3])]; eexists; (split; [exact K3|left; reflexivity]).
Qed.
Print Assumptions C58_reply_source.

(** with unambiguous Seqnos it is the server's answer to this very request. *)
Theorem C58_own_reply_partial : forall cp os k r,
  let s := run cp os init in
  noSeqClash s -> In (ERet k (RReply r)) (hist s) ->
  exists p m, callFrame s k p m /\ In (ESubmit k (setSeqM 0 m)) (hist s) /\
    In (EAnswer p r) (hist s) /\ mSeq r = mSeq m /\ mCall r = mCall m /\
    ((mTyp r = TReply /\ jobLog p (hist s) = [ERun p m; EEnd p (mBody r) (mErr r); EAnswer p r]) \/
     (mTyp r = TError /\ jobLog p (hist s) = [EAnswer p r])).
Proof.
  intros cp os k r s NC H. destruct (inv_run cp os) as [H1 H2 H3]. fold s in H1, H2, H3.
  destruct (C58_reply_source cp os k r H) as (p & m & K1 & K0 & K2 & _). fold s in K1, K0.
  exists p, m. split; [exact K1|]. split; [exact K0|].
  destruct (ret_call s k _ H3 H) as (c & Hc & Hp).
  destruct (r_ret _ H3 k c r Hc Hp) as (p' & m' & L1 & L2 & L3).
  pose proof (i_once1 _ H1 p p' m m' k K1 L1) as <-.
  assert (m' = m) as -> by (unfold callFrame in K1; congruence). clear L1 L2.
  destruct (i_fcall _ H1 p m k K1) as (NZ & c' & Hc' & EM). rewrite Hc in Hc'. injection Hc' as <-.
  destruct (NC k p m K1) as [NP NO].
  (* which message was answered *)
  assert (forall q x, frame s q x -> mSeq x = mSeq m -> answerable (mTyp x) ->
    q = p /\ x = m) as UQ.
  { intros q x Fq Ex An. apply frame_sent in Fq. destruct Fq as (o & Fq). destruct o as [k'|k'| |i|i].
    - destruct (i_fcall _ H1 q x k' Fq) as (_ & c2 & Hc2 & Em2).
      assert (k = k') as <-.
      { eapply (i_cc _ H1 k k' c c2 Hc Hc2); congruence. }
      pose proof (i_once1 _ H1 _ _ _ _ _ K1 Fq) as <-. unfold callFrame in K1.
      rewrite Fq in K1. injection K1 as ->. auto.
    - rewrite (i_fcanc _ H1 q x k' Fq) in An. destruct An.
    - destruct (NO q x Fq Ex).
    - destruct (i_fstrm _ H1 q x i Fq) as (h & Hh & E1 & _). exfalso.
      apply (i_ch _ H1 k i c h Hc Hh). congruence.
    - rewrite (i_fclose _ H1 q x i Fq) in An. destruct An. }
  assert (mTyp m = TRPC) as TM by (rewrite <- EM; apply (i_call _ H1 k c Hc)).
  destruct L3 as [L3|(q & [L3|L3])].
  - destruct (NP r L3 K2).
  - destruct (answer_cases s q r H2 L3) as (j & Hj & Fj & [(A & HT & Hr)|(A & b & b0 & e0 & Hb & HT & Hr)]).
    + destruct (UQ q (jReq j) Fj) as [-> EJ]; [rewrite <- K2, Hr; reflexivity|exact A|].
      rewrite EJ in Hr, HT. split; [exact L3|]. split; [exact K2|]. split; [rewrite Hr; reflexivity|].
      right. split; [rewrite Hr; reflexivity|]. rewrite Hr. exact HT.
    + destruct (UQ q (jReq j) Fj) as [-> EJ]; [rewrite <- K2, Hr; reflexivity| |].
      { destruct (mTyp (jReq j)); exact A || exact I. }
      rewrite EJ in Hr, HT, Hb. split; [exact L3|]. split; [exact K2|]. split; [rewrite Hr; reflexivity|].
      left. split; [rewrite Hr; reflexivity|]. rewrite Hr. cbn [mBody mErr replyOf].
      change (jobLog p (hist s)) with (tr p s). rewrite HT. unfold fin. rewrite TM.
      destruct b as [|e b]; [reflexivity|]. exfalso. inversion Hb as [|? ? X _]; subst.
      destruct e; cbn in X; try contradiction; rewrite TM in X; intuition discriminate.
  - destruct (down_typ s q r H2 L3) as (j & Hj & HT & E1 & E2). pose proof (job_frame s q j H2 Hj) as Fj.
    destruct (UQ q (jReq j) Fj) as [-> EJ]; [congruence| |].
    { destruct HT as [HT|HT]; rewrite HT; exact I. }
    rewrite EJ, TM in HT. destruct HT; discriminate.
Qed.
Print Assumptions C58_own_reply_partial.

(** when the server has dealt with everything and the client has read it all, a
    call still waiting has its reply: it returns it, or the error of a failed
    write. *)
Theorem C58_settled : forall cp os k c,
  let s := run cp os init in
  settled s -> nth_error (cCalls s) k = Some c -> kPh c = PWait ->
  mget Z.eqb (mCall (kMsg c)) (cRead s) = None -> mget Z.eqb (mCall (kMsg c)) (cErrs s) = None ->
  exists r, hist (step cp (OReturn k) s) = hist s ++ [ERet k r] /\ (r = RSendErr \/ exists m, r = RReply m).
Proof.
  intros cp os k c s (HU & HW & HS & HJ) Hc Hp HR HE. destruct (inv_run cp os) as [H1 H2 H3]. fold s in H1, H2, H3.
  cbn [step]. unfold callReturn. rewrite Hc, Hp. destruct (kDone c) eqn:ED.
  - exfalso. destruct (r_open _ H3 k c Hc (or_introl Hp) ED) as (p & m & K1 & _).
    destruct (i_fcall _ H1 p m k K1) as (_ & c' & Hc' & EM). rewrite Hc in Hc'. injection Hc' as <-.
    assert (mTyp m = TRPC) as TM by (rewrite <- EM; apply (i_call _ H1 k c Hc)).
    assert (frame s p m) as Fp by (apply frame_sent; eauto).
    pose proof (v_tr _ H2 p) as V. pose proof (frame_job s p m H2 Fp) as FJ.
    destruct (nth_error (sJobs s) p) as [j|] eqn:EJ.
    + assert (exists r, In (EAnswer p r) (tr p s)) as (r & Ir).
      { assert (forall u, u = true -> skelErr u p (jReq j) (tr p s) -> exists r, In (EAnswer p r) (tr p s)) as CE.
        { intros u -> (_ & [[X _]|K]); [discriminate X|]. rewrite K. eexists. left. reflexivity. }
        assert (forall u, u = true -> skelAns u p (jReq j) (tr p s) -> exists r, In (EAnswer p r) (tr p s)) as CA.
        { intros u -> (_ & b & b0 & e0 & _ & [[X _]|K]); [discriminate X|]. rewrite K. eexists. right.
          apply in_app_iff. right. right. left. reflexivity. }
        unfold skel in V. rewrite FJ, TM in V.
        destruct (HJ p j EJ) as [E|[E|[E|E]]]; rewrite E in V; rewrite FJ in CE, CA.
        - destruct V as [_ [X|X]]; discriminate X.
        - eapply CA; eassumption.
        - eapply CE; eassumption.
        - destruct V as [[X _]|[[X _]|[X|X]]]; [destruct X; exact I|discriminate X|eapply CE; eassumption|eapply CA; eassumption]. }
      apply answer_tr in Ir.
      assert (In r (wireS s)) as X.
      { eapply (r_ans _ H3 p r m k c Ir K1 Hc); [left; exact Hp|exact ED|rewrite <- EM; exact HR|rewrite <- EM; exact HE]. }
      rewrite HS in X. destruct X.
    + unfold frame in Fp. rewrite (v_fifo _ H2), HW, app_nil_r, nth_error_map, EJ in Fp. discriminate Fp.
  - exists RSendErr. split; [reflexivity|]. auto.
  - exists (RReply m). split; [reflexivity|]. eauto.
Qed.
Print Assumptions C58_settled.

(** two calls whose replies come back in the other order. *)
Definition twoCalls : list op :=
  [ORegister R2 1; ORegister R2 2; OCall 11 1 100 false; OCall 12 2 200 false; OSendCall 0 true; OSendCall 1 true;
   OSrvRead; OSrvRead; OStart 0; OStart 1; OEnd 1 222 0; OReply 1; OEnd 0 111 5; OReply 0; OClean 0; OClean 1;
   OCliRead; OCliRead].

Example C58_own_reply_ex :
  let s := run cpx (twoCalls ++ [OReturn 0; OReturn 1]) init in
  noSeqClash s /\ settled s /\
  callLog 0 (hist s) = [ESubmit 0 (mkMsg TRPC 0 11 1 0 100 0 false); ERet 0 (RReply (mkMsg TReply 1 11 1 0 111 5 false))] /\
  callLog 1 (hist s) = [ESubmit 1 (mkMsg TRPC 0 12 2 0 200 0 false); ERet 1 (RReply (mkMsg TReply 2 12 2 0 222 0 false))].
Proof.
  cbv zeta. set (s := run cpx (twoCalls ++ [OReturn 0; OReturn 1]) init). vm_compute in s. subst s.
  split; [|split; [|split; reflexivity]].
  - intros k p m _. split.
    + intros x X. exfalso. cbn in X. repeat (destruct X as [X|X]; [discriminate X|]). exact X.
    + intros q x X. exfalso. cbn in X. destruct q as [|[|q]]; cbn in X; try discriminate X. destruct q; discriminate X.
  - split; [reflexivity|]. split; [reflexivity|]. split; [reflexivity|].
    intros p j X. cbn in X. destruct p as [|[|p]]; cbn in X; [injection X as <-; auto|injection X as <-; auto|].
    destruct p; discriminate X.
Qed.

Example C58_settled_ex :
  let s := run cpx twoCalls init in
  settled s /\ mget Z.eqb 11 (cRead s) = None /\ mget Z.eqb 11 (cErrs s) = None /\
  exists c, nth_error (cCalls s) 0 = Some c /\ kPh c = PWait.
Proof.
  cbv zeta. set (s := run cpx twoCalls init). vm_compute in s. subst s.
  split; [|split; [reflexivity|split; [reflexivity|eexists; split; reflexivity]]].
  split; [reflexivity|]. split; [reflexivity|]. split; [reflexivity|].
  intros p j X. cbn in X. destruct p as [|[|p]]; cbn in X; [injection X as <-; auto|injection X as <-; auto|].
  destruct p; discriminate X.
Qed.

(** without that: Server.SendMessage(callID, subject, destAddr, by, seqno) with the
    Seqno of a call in progress is returned by that call as its reply, while its
    function has not even returned. *)
Theorem C58_push_refuted : exists os r,
  let s := run cpx os init in
  In (EPush r) (hist s) /\ In (ERet 0 (RReply r)) (hist s) /\
  (exists p m, callFrame s 0 p m /\ runsFor p (hist s) = [m] /\ answersTo p (hist s) = [] /\ mCall r <> mCall m).
Proof.
  exists [ORegister R2 1; OCall 11 1 100 false; OSendCall 0 true; OSrvRead; OStart 0;
          OPush 99 1 7; OCliRead; OReturn 0], (mkMsg TOneWay 1 99 0 0 7 0 false).
  cbv zeta. split; [vm_compute; auto 8|]. split; [vm_compute; auto 8|].
  exists 0%nat, (mkMsg TRPC 1 11 1 0 100 0 false).
  split; [reflexivity|]. split; [reflexivity|]. split; [reflexivity|]. discriminate.
Qed.
Print Assumptions C58_push_refuted.

(** and OneWaySend with a Seqno of the user's choice, to a service that is not
    registered: the error sent back for it is taken as the reply of a call. *)
Theorem C58_oneway_refuted : exists os r,
  let s := run cpx os init in
  In (ERet 0 (RReply r)) (hist s) /\ In (EAnswer 1 r) (hist s) /\
  (exists m x, callFrame s 0 0 m /\ frame s 1 x /\ mTyp x = TOneWay /\ answersTo 0 (hist s) = []).
Proof.
  exists [ORegister R2 1; OCall 11 1 100 false; OSendCall 0 true; OOneWay 12 9 7 1 true; OSrvRead; OSrvRead;
          OStart 0; OStart 1; OCliRead; OReturn 0], (mkMsg TError 1 12 9 0 0 0 false).
  cbv zeta. split; [vm_compute; auto 8|]. split; [vm_compute; auto 8|].
  exists (mkMsg TRPC 1 11 1 0 100 0 false), (mkMsg TOneWay 1 12 9 0 7 0 false).
  repeat (split; [reflexivity|]). reflexivity.
Qed.
Print Assumptions C58_oneway_refuted.

(** ** C59: at most once *)

Lemma runs_tr : forall p s, runsFor p (hist s) = runsFor p (tr p s).
Proof.
  intros p s. unfold tr, runsFor. induction (hist s) as [|e r IH]; [reflexivity|].
  cbn [flat_map filter]. rewrite IH.
  destruct e; cbn [about]; try reflexivity; destruct (Nat.eqb p0 p) eqn:E; cbn; rewrite ?E; reflexivity.
Qed.

Lemma runs_body : forall p rq b, Forall (bodyEv p rq) b -> runsFor p b = [].
Proof.
  intros p rq b H. induction H as [|e b He _ IH]; [reflexivity|]. unfold runsFor in *. cbn [flat_map].
  rewrite IH. destruct e; cbn in He; try contradiction; reflexivity.
Qed.

Lemma runs_app : forall p a b, runsFor p (a ++ b) = runsFor p a ++ runsFor p b.
Proof. intros. apply flat_map_app. Qed.

(** each message the client wrote makes the server call a registered function at
    most once, with exactly that message. *)
Theorem C59_at_most_once : forall cp os p,
  let s := run cp os init in
  runsFor p (hist s) = [] \/ exists m, frame s p m /\ runsFor p (hist s) = [m].
Proof.
  intros cp os p s. destruct (inv_run cp os) as [_ H2 _]. fold s in H2.
  rewrite runs_tr. pose proof (v_tr _ H2 p) as V.
  destruct (nth_error (sJobs s) p) as [j|] eqn:EJ; [|rewrite V; auto].
  pose proof (job_frame s p j H2 EJ) as Fj.
  assert (forall t b, tr p s = ERun p (jReq j) :: b ++ t -> Forall (bodyEv p (jReq j)) b -> runsFor p t = [] ->
    runsFor p (tr p s) = [jReq j]) as C1.
  { intros t b E Hb Ht. rewrite E. change (ERun p (jReq j) :: b ++ t) with ([ERun p (jReq j)] ++ b ++ t).
    rewrite !runs_app, (runs_body p (jReq j) b Hb), Ht. cbn. rewrite Nat.eqb_refl. reflexivity. }
  assert (forall b0 e0, runsFor p [fin p (jReq j) b0 e0] = []) as CF
    by (intros; unfold fin; destruct (mTyp (jReq j)); reflexivity).
  assert (forall u, skelErr u p (jReq j) (tr p s) -> runsFor p (tr p s) = []) as CE
    by (intros u (_ & [[_ K]|K]); rewrite K; reflexivity).
  assert (forall u, skelAns u p (jReq j) (tr p s) -> runsFor p (tr p s) = [jReq j]) as CA.
  { intros u (_ & b & b0 & e0 & Hb & [[_ K]|K]); eapply C1; try exact K; try exact Hb; [apply CF|].
    change [fin p (jReq j) b0 e0; EAnswer p (replyOf (jReq j) b0 e0)]
      with ([fin p (jReq j) b0 e0] ++ [EAnswer p (replyOf (jReq j) b0 e0)]).
    rewrite runs_app, CF. reflexivity. }
  unfold skel in V. destruct (jPh j).
  - left. destruct V as [-> _]. reflexivity.
  - left. rewrite V. reflexivity.
  - right. exists (jReq j). split; [exact Fj|]. destruct V as (_ & b & Hb & K).
    apply (C1 [] b); [rewrite app_nil_r; exact K|exact Hb|reflexivity].
  - right. exists (jReq j). split; [exact Fj|]. destruct V as (_ & b & Hb & K). eapply C1; try exact K; [exact Hb|apply CF].
  - right. eauto.
  - left. eauto.
  - destruct V as [[_ V]|[[_ V]|[V|V]]]; [left; rewrite V; reflexivity| |left; eauto|right; eauto].
    right. exists (jReq j). split; [exact Fj|]. rewrite V. cbn. rewrite Nat.eqb_refl. reflexivity.
Qed.
Print Assumptions C59_at_most_once.

(** a call writes its request at most once: the client never repeats it. *)
Theorem C59_one_request : forall cp os k p p' m m',
  let s := run cp os init in
  callFrame s k p m -> callFrame s k p' m' -> p = p' /\ m = m'.
Proof.
  intros cp os k p p' m m' s H H'. destruct (inv_run cp os) as [H1 _ _].
  pose proof (i_once1 _ H1 p p' m m' k H H') as <-. unfold callFrame in *. split; [reflexivity|congruence].
Qed.
Print Assumptions C59_one_request.

Lemma answers_tr : forall p s, answersTo p (hist s) = answersTo p (tr p s).
Proof.
  intros p s. unfold tr, answersTo. induction (hist s) as [|e l IH]; [reflexivity|].
  cbn [flat_map filter]. rewrite IH.
  destruct e; cbn [about]; try reflexivity; destruct (Nat.eqb p0 p) eqn:E; cbn; rewrite ?E; reflexivity.
Qed.

(** an answer to a request: at most one, and unless it is an error it carries what
    the function returned, after the one call of the function. *)
Theorem C59_answer : forall cp os p r,
  let s := run cp os init in
  In (EAnswer p r) (hist s) ->
  answersTo p (hist s) = [r] /\
  exists m, frame s p m /\ mSeq r = mSeq m /\ mCall r = mCall m /\
   ((mTyp r = TError /\ jobLog p (hist s) = [EAnswer p r]) \/
    (mTyp r = TReply /\ exists h, jobLog p (hist s) = ERun p m :: h ++ [EAnswer p r] /\
      (mTyp m <> TUpBegin -> exists h', h = h' ++ [EEnd p (mBody r) (mErr r)]))).
Proof.
  intros cp os p r s H. destruct (inv_run cp os) as [_ H2 _]. fold s in H2.
  rewrite answers_tr. change (jobLog p (hist s)) with (tr p s).
  destruct (answer_cases s p r H2 H) as (j & Hj & Fj & [(A & HT & Hr)|(A & b & b0 & e0 & Hb & HT & Hr)]).
  - split; [rewrite HT, Hr; cbn; rewrite Nat.eqb_refl; reflexivity|].
    exists (jReq j). split; [exact Fj|]. rewrite HT, Hr. cbn. auto.
  - assert (forall x, answersTo p (fin p (jReq j) b0 e0 :: x) = answersTo p x) as CF
      by (intros; unfold fin; destruct (mTyp (jReq j)); reflexivity).
    assert (answersTo p b = []) as CB.
    { clear - Hb. induction Hb as [|e b He _ IH]; [reflexivity|]. unfold answersTo in *. cbn [flat_map].
      rewrite IH. destruct e; cbn in He; try contradiction; reflexivity. }
    split.
    + rewrite HT. unfold answersTo at 1. cbn [flat_map]. rewrite flat_map_app. fold (answersTo p b).
      rewrite CB. cbn [app]. fold (answersTo p [fin p (jReq j) b0 e0; EAnswer p (replyOf (jReq j) b0 e0)]).
      rewrite CF, Hr. cbn. rewrite Nat.eqb_refl. reflexivity.
    + exists (jReq j). split; [exact Fj|]. rewrite Hr. split; [reflexivity|]. split; [reflexivity|].
      right. split; [reflexivity|]. exists (b ++ [fin p (jReq j) b0 e0]). split.
      * rewrite HT, <- app_assoc. reflexivity.
      * intros NU. exists b. unfold fin. cbn [mBody mErr replyOf]. destruct (mTyp (jReq j)); congruence || reflexivity.
Qed.
Print Assumptions C59_answer.

Example C59_at_most_once_ex :
  let s := run cpx (twoCalls ++ [OReturn 0; OReturn 1]) init in
  runsFor 0 (hist s) = [mkMsg TRPC 1 11 1 0 100 0 false] /\
  In (EAnswer 1 (mkMsg TReply 2 12 2 0 222 0 false)) (hist s) /\
  callFrame s 1 1 (mkMsg TRPC 2 12 2 0 200 0 false).
Proof. vm_compute. auto 20. Qed.

(** ** C60: uploads *)

(** whatever the client does, an UploadReaderFunc sees its own begin message
    first, then parts 1, 2, 3, ... of the same CallID. *)
Theorem C60_in_order : forall cp os p m,
  let s := run cp os init in
  frame s p m -> mTyp m = TUpBegin ->
  inOrder (given p (hist s)) /\ Forall (fun x => mCall x = mCall m) (given p (hist s)) /\
  (given p (hist s) = [] \/ exists l, given p (hist s) = m :: l).
Proof.
  intros cp os p m s F TM. destruct (inv_run cp os) as [_ H2 _]. fold s in H2.
  change (given p (hist s)) with (gives p (hist s)). rewrite gives_tr.
  pose proof (frame_job s p m H2 F) as FJ. destruct (nth_error (sJobs s) p) as [j|] eqn:EJ.
  - subst m. destruct (inv6_run cp os p j EJ TM) as [N1 N2 N3 _ _]. fold s in N1, N2, N3.
    split; [exact N1|]. split; [exact N3|]. destruct (gives p (tr p s)) as [|x l]; [auto|right].
    exists l. rewrite (N2 x eq_refl). reflexivity.
  - rewrite FJ. split; [intros i x K; destruct i; discriminate K|]. split; [constructor|auto].
Qed.
Print Assumptions C60_in_order.

(** a reply without error means the function was given the whole upload, up to the
    part sent with last=true. *)
Theorem C60_success_complete : forall cp os p m r,
  let s := run cp os init in
  frame s p m -> mTyp m = TUpBegin -> In (EAnswer p r) (hist s) -> mTyp r = TReply -> mErr r = 0 ->
  complete (given p (hist s)).
Proof.
  intros cp os p m r s F TM IA TR ER. destruct (inv_run cp os) as [_ H2 _]. fold s in H2.
  change (given p (hist s)) with (gives p (hist s)). rewrite gives_tr.
  pose proof (frame_job s p m H2 F) as FJ. apply answer_tr in IA.
  destruct (nth_error (sJobs s) p) as [j|] eqn:EJ; [|rewrite FJ in IA; destruct IA].
  subst m. destruct (inv6_run cp os p j EJ TM) as [_ _ _ _ N5]. fold s in N5.
  apply full_complete. eapply N5; eassumption.
Qed.
Print Assumptions C60_success_complete.

(** with distinct CallIDs and no cancelling, what the function was given is the
    beginning of what was uploaded: nothing skipped, repeated or taken from
    another upload. *)
Theorem C60_prefix_partial : forall cp os p m,
  let s := run cp os init in
  freshIds s -> frame s p m -> mTyp m = TUpBegin \/ mTyp m = TReqBi -> notCancelled (mCall m) s ->
  exists rest, given p (hist s) ++ rest = partsFrom s p (mCall m).
Proof.
  intros cp os p m s FI F TM NC. destruct (inv_run cp os) as [_ H2 _]. fold s in H2.
  pose proof (frame_job s p m H2 F) as FJ. destruct (nth_error (sJobs s) p) as [j|] eqn:EJ.
  - subst m. destruct (inv5_run cp os FI p j EJ) as [_ HR].
    + destruct TM as [->| ->]; reflexivity.
    + apply notCancelled_no. exact NC.
    + exact HR.
  - exists (partsFrom s p (mCall m)). change (given p (hist s)) with (gives p (hist s)). rewrite gives_tr, FJ. reflexivity.
Qed.
Print Assumptions C60_prefix_partial.

(** and while it runs the rest is still on its way. *)
Theorem C60_nothing_lost_partial : forall cp os p m,
  let s := run cp os init in
  freshIds s -> frame s p m -> mTyp m = TUpBegin \/ mTyp m = TReqBi -> notCancelled (mCall m) s ->
  sCrash s = false -> running p s ->
  exists c q, nth_error (sChan s) c = Some q /\
    given p (hist s) ++ map snd q ++
    (match sBlk s with Some (_, (_, x)) => if mCall x =? mCall m then [x] else [] | None => [] end) ++
    filter (fun x => match mTyp x with TUpBegin | TReqBi | TUpMore | TUpEnd => true | _ => false end
                     && (mCall x =? mCall m)) (wireC s)
    = partsFrom s p (mCall m).
Proof.
  intros cp os p m s FI F TM NC CR (j & n & EJ & RJ). destruct (inv_run cp os) as [_ H2 _]. fold s in H2, EJ.
  pose proof (frame_job s p m H2 F) as FJ. rewrite EJ in FJ. subst m.
  destruct (inv5_run cp os FI p j EJ) as [HA _].
  - destruct TM as [->| ->]; reflexivity.
  - apply notCancelled_no. exact NC.
  - destruct HA as (c & q & HU); [rewrite RJ; exact I|exact CR|].
    exists c, q. split; [apply HU|]. exact (u_all _ _ _ _ _ HU).
Qed.
Print Assumptions C60_nothing_lost_partial.

(** the server process does not panic. *)
Theorem C60_no_panic_partial : forall cp os,
  let s := run cp os init in
  freshIds s -> properUploads s -> sCrash s = false.
Proof. intros cp os s FI PU. apply no_crash; [exact FI|apply proper_orderly; exact PU]. Qed.
Print Assumptions C60_no_panic_partial.

Definition twoUploads : list op :=
  [ORegister RUp 1; OUpBegin 21 1 100 true; OUpReg 0; OUpBegin 22 1 200 true; OUpReg 1;
   OUpMore 0 101 false true; OUpMore 1 201 false true; OUpMore 0 102 true true;
   OSrvRead; OSrvRead; OSrvRead; OSrvPart; OSrvRead; OSrvPart; OSrvRead; OSrvPart;
   OStart 1; OStart 0; OUpPart 0 0 0; OUpPart 1 0 0; OUpPart 0 0 0; OUpPart 1 0 0; OUpPart 0 77 0; OReply 0].

Example C60_uploads_ex :
  let s := run cpx twoUploads init in
  freshIds s /\ properUploads s /\ running 1 s /\ In (EAnswer 0 (mkMsg TReply 1 21 1 0 77 0 false)) (hist s) /\
  map mBody (given 0 (hist s)) = [100; 101; 102] /\ map mBody (given 1 (hist s)) = [200; 201].
Proof.
  cbv zeta. set (s := run cpx twoUploads init). vm_compute in s. subst s.
  split; [|split; [|split; [|split; [|split]]]].
  - intros p q m m' P Q. unfold frame in *. cbn in P, Q.
    destruct p as [|[|[|[|[|p]]]]]; cbn in P; try (destruct p; discriminate P); injection P as <-; cbn; try discriminate;
    destruct q as [|[|[|[|[|q]]]]]; cbn in Q; try (destruct q; discriminate Q); injection Q as <-; cbn; try discriminate; auto.
  - intros p m P T. split.
    + intros (q & x & Q & K & _). unfold frame in Q. cbn in Q.
      destruct q as [|[|[|[|[|q]]]]]; cbn in Q; try (destruct q; discriminate Q); injection Q as <-; discriminate K.
    + unfold frame in P. cbn in P.
      destruct p as [|[|[|[|[|p]]]]]; cbn in P; try (destruct p; discriminate P); injection P as <-; try discriminate T;
      intros i x X; cbn in X; destruct i as [|[|[|i]]]; cbn in X; try discriminate X;
        try (injection X as <-; reflexivity); destruct i; discriminate X.
  - eexists _, _. split; reflexivity.
  - cbn. auto 20.
  - reflexivity.
  - reflexivity.
Qed.

(** one part that is not sent (its ctx was done, or the write failed) and one more
    that is: the server process panics. *)
Theorem C60_skipped_part_refuted : exists os,
  let s := run cpx os init in
  freshIds s /\ (forall c, notCancelled c s) /\ sCrash s = true.
Proof.
  exists [ORegister RUp 1; OUpBegin 21 1 100 true; OUpReg 0; OUpMore 0 101 false false; OUpMore 0 102 false true;
          OSrvRead; OSrvRead; OSrvPart; OStart 0; OUpPart 0 0 0; OUpPart 0 0 0].
  cbv zeta. match goal with |- context [run cpx ?l init] => set (s := run cpx l init) end. vm_compute in s. subst s.
  split; [|split; [|reflexivity]].
  - intros p q m m' P Q. unfold frame in *. cbn in P, Q.
    destruct p as [|[|p]]; cbn in P; try (destruct p; discriminate P); injection P as <-; cbn; try discriminate;
    destruct q as [|[|q]]; cbn in Q; try (destruct q; discriminate Q); injection Q as <-; cbn; try discriminate; auto.
  - intros c (q & x & Q & K & _). unfold frame in Q. cbn in Q.
    destruct q as [|[|q]]; cbn in Q; try (destruct q; discriminate Q); injection Q as <-; discriminate K.
Qed.
Print Assumptions C60_skipped_part_refuted.

(** a function that returns an error on its first part, and a client that uploads
    as many parts again as the buffer holds before it reads the reply: the
    server's read loop waits for ever, no message of this connection is read
    again. *)
Theorem C60_wedge_refuted : forall cp, (1 <= capStrm cp)%nat ->
  exists os, let s := run cp os init in
    up s = true /\ sCrash s = false /\ (exists r, In (EAnswer 0 r) (hist s) /\ mErr r = 5) /\
    forall os', length (sJobs (run cp os' s)) = length (sJobs s).
Proof.
  intros cp HC. exists (wedgeScript (capStrm cp)). cbv zeta.
  destruct (wedge_reached cp _ HC eq_refl) as (H1 & H2 & H3 & H4).
  split; [exact H1|]. split; [exact H2|]. split; [exact H4|].
  intros os'. eapply wedged_for_ever. exact H3.
Qed.
Print Assumptions C60_wedge_refuted.

(** UploadBegin registers its channels after it has sent its first message: the
    answer may be read before that and is then in no channel, though the upload
    is the only thing the client does. *)
Theorem C60_late_registration_refuted : exists os r,
  let s := run cpx os init in
  frame s 0 (mkMsg TUpBegin 1 21 1 0 100 0 false) /\ answersTo 0 (hist s) = [r] /\ wireS s = [] /\
  cChan s = [[]; []] /\ hist s = [ERun 0 (mkMsg TUpBegin 1 21 1 0 100 0 false);
    EPart 0 (mkMsg TUpBegin 1 21 1 0 100 0 false) false; EClean 0; EAnswer 0 r].
Proof.
  exists [ORegister RUp 1; OUpBegin 21 1 100 true; OSrvRead; OStart 0; OUpPart 0 0 5; OReply 0; OCliRead; OUpReg 0],
    (mkMsg TReply 1 21 1 0 0 5 false).
  vm_compute. auto 10.
Qed.
Print Assumptions C60_late_registration_refuted.

(** ** C61: downloads *)

(** the parts a function sends are numbered 0, 1, 2, ... and carry the Seqno and
    CallID of the request. *)
Theorem C61_numbered : forall cp os p m,
  let s := run cp os init in
  frame s p m ->
  inOrder (downSent p (hist s)) /\
  Forall (fun x => mSeq x = mSeq m /\ mCall x = mCall m) (downSent p (hist s)).
Proof.
  intros cp os p m s F. destruct (inv_run cp os) as [_ H2 _]. fold s in H2.
  change (downSent p (hist s)) with (downs p (hist s)). rewrite downs_tr.
  pose proof (frame_job s p m H2 F) as FJ. destruct (nth_error (sJobs s) p) as [j|] eqn:EJ.
  - subst m. destruct (inv7_run cp os p j EJ) as [HD _]. fold s in HD. split.
    + intros i x K. destruct (HD i x K) as (b & l & ->). reflexivity.
    + apply Forall_forall. intros x K. apply In_nth_error in K. destruct K as (i & K).
      destruct (HD i x K) as (b & l & ->). split; reflexivity.
  - rewrite FJ. split; [intros i x K; destruct i; discriminate K|constructor].
Qed.
Print Assumptions C61_numbered.

(** a new Downloader or Bistreamer with CallID c: from then on its ReadDownloadsCh
    yields, in order, every message with this CallID the server writes: received,
    still buffered, or still on the wire. *)
Theorem C61_delivery : forall cp os os' k c svc,
  let s0 := run cp os init in
  let a := length (cChan s0) in
  let s := run cp (os ++ ONewStream k c svc :: os') init in
  k <> KUp -> (forall m, In m (wireS s0) -> mCall m <> c) -> freshStreams s ->
  exists h qa qb, hist s = hist s0 ++ h /\
    nth_error (cChan s) a = Some qa /\ nth_error (cChan s) (S a) = Some qb /\
    received a h ++ qa ++ withId c (wireS s) = withId c (serverWrote h) /\
    received (S a) h ++ qb ++ errsWithId c (wireS s) = errsWithId c (serverWrote h).
Proof.
  intros cp os os' k c svc s0 a s NK HW FS.
  destruct (fed_new k c svc s0 (below_run cp os) NK HW) as (HF & i & Hi & Hc & Hk).
  assert (s = run cp os' (step cp (ONewStream k c svc) s0)) as ES.
  { unfold s. rewrite run_app. reflexivity. }
  assert (fed c a (S a) (hist s0) s) as HF'.
  { rewrite ES. eapply fed_run; [exact HF|rewrite <- ES; exact FS|exact Hi|exact Hc|rewrite Hk; exact NK]. }
  destruct (d_all _ _ _ _ _ HF') as (h & qa & qb & K1 & K2 & K3 & K4 & K5).
  exists h, qa, qb. auto 10.
Qed.
Print Assumptions C61_delivery.

Lemma withId_tr : forall c p h,
  (forall e x, In e h -> In x (serverWrote [e]) -> mCall x = c -> mTyp x <> TError -> about p e = true) ->
  withId c (serverWrote h) = withId c (serverWrote (filter (about p) h)).
Proof.
  intros c p h H. induction h as [|e r IH]; [reflexivity|].
  assert (withId c (serverWrote r) = withId c (serverWrote (filter (about p) r))) as E
    by (apply IH; intros; eapply H; try eassumption; right; assumption).
  change (serverWrote (e :: r)) with (serverWrote [e] ++ serverWrote r) || idtac.
  assert (serverWrote (e :: r) = serverWrote [e] ++ serverWrote r) as E1
    by (unfold serverWrote; cbn [flat_map]; rewrite app_nil_r; reflexivity).
  rewrite E1. unfold withId at 1. rewrite filter_app. fold (withId c (serverWrote [e])). fold (withId c (serverWrote r)).
  rewrite E. cbn [filter]. destruct (about p e) eqn:A.
  - assert (serverWrote (e :: filter (about p) r) = serverWrote [e] ++ serverWrote (filter (about p) r)) as E2
      by (unfold serverWrote; cbn [flat_map]; rewrite app_nil_r; reflexivity).
    rewrite E2. unfold withId. rewrite filter_app. reflexivity.
  - replace (withId c (serverWrote [e])) with (@nil msg); [reflexivity|]. symmetry.
    unfold withId. apply filter_none. apply Forall_forall. intros x Hx.
    destruct (mCall x =? c) eqn:EC; [|reflexivity]. apply Z.eqb_eq in EC.
    destruct (mTyp x) eqn:ET; try reflexivity;
      (assert (about p e = true) as X by (eapply (H e x); [left; reflexivity|exact Hx|exact EC|congruence]); congruence).
Qed.

(** with distinct CallIDs, and none of Server.SendMessage's with this CallID, what
    the server writes for a download's CallID is: the parts the function sent,
    then its reply. *)
Theorem C61_stream_partial : forall cp os p m,
  let s := run cp os init in
  freshIds s -> (forall x, In (EPush x) (hist s) -> mCall x <> mCall m) ->
  frame s p m -> mTyp m = TReqDown \/ mTyp m = TReqBi ->
  exists l, withId (mCall m) (serverWrote (hist s)) = downSent p (hist s) ++ l /\
    (l = [] \/ exists r, l = [r] /\ mTyp r = TReply /\ answersTo p (hist s) = [r]).
Proof.
  intros cp os p m s FI NP F TM. destruct (inv_run cp os) as [_ H2 _]. fold s in H2.
  assert (forall q j, nth_error (sJobs s) q = Some j -> runnable (mTyp (jReq j)) -> mCall (jReq j) = mCall m -> q = p) as UQ.
  { intros q j Hj R E. apply (FI q p (jReq j) m (job_frame s q j H2 Hj) F); [| |exact E].
    - destruct (mTyp (jReq j)); try contradiction; reflexivity.
    - destruct TM as [->| ->]; reflexivity. }
  rewrite (withId_tr (mCall m) p (hist s)).
  2:{ intros e x He Hx Ec Et. destruct e; cbn in Hx; try contradiction; destruct Hx as [->|[]].
      - destruct (down_typ s _ x H2 He) as (j & Hj & HT & _ & E2). cbn. apply Nat.eqb_eq.
        apply (UQ _ j Hj); [destruct HT as [->| ->]; exact I|congruence].
      - destruct (answer_cases s _ x H2 He) as (j & Hj & _ & [(_ & _ & Hr)|(R & b & b0 & e0 & _ & _ & Hr)]).
        + rewrite Hr in Et. destruct Et. reflexivity.
        + cbn. apply Nat.eqb_eq. apply (UQ _ j Hj R). rewrite <- Ec, Hr. reflexivity.
      - destruct (NP x He Ec). }
  change (filter (about p) (hist s)) with (tr p s). change (downSent p (hist s)) with (downs p (hist s)).
  rewrite downs_tr, answers_tr. change (downs p (tr p s)) with (downSent p (tr p s)).
  pose proof (frame_job s p m H2 F) as FJ. pose proof (v_tr _ H2 p) as V.
  destruct (nth_error (sJobs s) p) as [j|] eqn:EJ.
  2:{ rewrite FJ. exists []. split; [reflexivity|auto]. }
  assert (forall x, In (EDown p x) (tr p s) -> mTyp x <> TError) as NE.
  { intros x Hx. assert (In x (downs p (tr p s))) as Hd.
    { unfold downs. apply in_flat_map. eexists. split; [exact Hx|]. cbn. rewrite Nat.eqb_refl. left. reflexivity. }
    apply In_nth_error in Hd. destruct Hd as (i & Hd).
    destruct (inv7_run cp os p j EJ) as [HD _]. fold s in HD. destruct (HD i x Hd) as (bb & ll & ->).
    unfold downMsg. cbn. destruct (Z.of_nat i =? 0); [|destruct ll]; discriminate. }
  assert (forall b, Forall (bodyEv p m) b -> (forall x, In (EDown p x) b -> mTyp x <> TError) ->
    withId (mCall m) (serverWrote b) = downSent p b /\ answersTo p b = []) as CB.
  { clear - m. intros b Hb. induction Hb as [|e b He _ IH]; intros NE; [split; reflexivity|].
    destruct IH as [IH1 IH2]; [intros x Hx; apply NE; right; exact Hx|].
    unfold serverWrote, downSent, answersTo in *. cbn [flat_map]. unfold withId in *. rewrite filter_app, IH1, IH2.
    destruct e; cbn in He; try contradiction; cbn.
    - split; reflexivity.
    - destruct He as (-> & _ & E & _). rewrite E, Z.eqb_refl, Nat.eqb_refl. split; [|reflexivity].
      specialize (NE _ (or_introl eq_refl)). destruct (mTyp m0); reflexivity || congruence. }
  assert (forall t b, tr p s = ERun p m :: b ++ t -> Forall (bodyEv p m) b ->
    downSent p t = [] ->
    withId (mCall m) (serverWrote (tr p s)) = downSent p (tr p s) ++ withId (mCall m) (serverWrote t) /\
    answersTo p (tr p s) = answersTo p t) as C1.
  { intros t b E Hb Ht. destruct (CB b Hb) as [E1 E2].
    { intros x Hx. apply NE. rewrite E. right. apply in_app_iff. left. exact Hx. }
    rewrite E. unfold serverWrote, downSent, answersTo, withId in *. cbn [flat_map app].
    rewrite !flat_map_app, filter_app, E1, E2, Ht, app_nil_r. split; reflexivity. }
  assert (forall b0 e0 t, serverWrote (fin p m b0 e0 :: t) = serverWrote t /\
    answersTo p (fin p m b0 e0 :: t) = answersTo p t /\ downSent p (fin p m b0 e0 :: t) = downSent p t) as CF
    by (intros; unfold fin; destruct (mTyp m); auto).
  assert (forall b b0 e0, Forall (bodyEv p m) b -> tr p s = ERun p m :: b ++ [fin p m b0 e0] ->
    withId (mCall m) (serverWrote (tr p s)) = downSent p (tr p s) ++ []) as CR.
  { intros b b0 e0 Hb K. destruct (CF b0 e0 []) as (F1 & F2 & F3).
    destruct (C1 _ b K Hb F3) as [E _]. rewrite E, F1. reflexivity. }
  assert (forall u, skelAns u p m (tr p s) ->
    exists l, withId (mCall m) (serverWrote (tr p s)) = downSent p (tr p s) ++ l /\
    (l = [] \/ exists r, l = [r] /\ mTyp r = TReply /\ answersTo p (tr p s) = [r])) as CA.
  { intros u (_ & b & b0 & e0 & Hb & [[_ K]|K]); [exists []; split; [eapply CR; eassumption|auto]|].
    destruct (CF b0 e0 [EAnswer p (replyOf m b0 e0)]) as (F1 & F2 & F3).
    destruct (C1 _ b K Hb F3) as [E1 E2]. exists [replyOf m b0 e0]. rewrite E1, E2, F1, F2. split.
    - cbn. rewrite Z.eqb_refl. reflexivity.
    - right. exists (replyOf m b0 e0). cbn. rewrite Nat.eqb_refl. auto. }
  assert (forall u, skelErr u p m (tr p s) ->
    exists l, withId (mCall m) (serverWrote (tr p s)) = downSent p (tr p s) ++ l /\
    (l = [] \/ exists r, l = [r] /\ mTyp r = TReply /\ answersTo p (tr p s) = [r])) as CE.
  { intros u (_ & [[_ K]|K]); rewrite K; exists []; (split; [|auto]); [reflexivity|].
    cbn. rewrite andb_false_r. reflexivity. }
  assert (tr p s = [] -> exists l, withId (mCall m) (serverWrote (tr p s)) = downSent p (tr p s) ++ l /\
    (l = [] \/ exists r, l = [r] /\ mTyp r = TReply /\ answersTo p (tr p s) = [r])) as C0
    by (intros ->; exists []; split; [reflexivity|auto]).
  unfold skel in V. rewrite FJ in V. destruct (jPh j).
  - apply C0, V.
  - apply C0, V.
  - destruct V as (_ & b & Hb & K). exists []. split; [|auto].
    destruct (C1 [] b) as [E _]; [rewrite app_nil_r; exact K|exact Hb|reflexivity|]. exact E.
  - destruct V as (_ & b & Hb & K). exists []. split; [eapply CR; eassumption|auto].
  - eapply CA; exact V.
  - eapply CE; exact V.
  - destruct V as [[_ V]|[[V _]|[V|V]]]; [exact (C0 V)| |eapply CE; exact V|eapply CA; exact V].
    rewrite V in TM. destruct TM; discriminate.
Qed.
Print Assumptions C61_stream_partial.

Definition aDownload : list op :=
  [ORegister RDown 1; ONewStream KDown 31 1; OBeginStream 0 7 false true; OSrvRead; OStart 0;
   ODown 0 500 false; OCliRead; ODown 0 501 false; OUserRecv 0; ODown 0 502 true; OEnd 0 9 0; OReply 0;
   OCliRead; OCliRead; OCliRead; OUserRecv 0; OUserRecv 0].

Example C61_download_ex :
  let s := run cpx aDownload init in
  freshIds s /\ freshStreams s /\ frame s 0 (mkMsg TReqDown 1 31 1 0 7 0 false) /\
  map mBody (downSent 0 (hist s)) = [500; 501; 502] /\
  map mTyp (received 0 (hist s)) = [TDownBegin; TDownMore; TDownEnd] /\
  nth_error (cChan s) 0 = Some [mkMsg TReply 1 31 1 0 9 0 false].
Proof.
  cbv zeta. set (s := run cpx aDownload init). vm_compute in s. subst s.
  split; [|split; [|repeat (split; [reflexivity|]); reflexivity]].
  - intros p q m m' P Q. unfold frame in *. cbn in P, Q.
    destruct p as [|p]; cbn in P; try (destruct p; discriminate P); injection P as <-; cbn; try discriminate;
    destruct q as [|q]; cbn in Q; try (destruct q; discriminate Q); injection Q as <-; cbn; try discriminate; auto.
  - intros i i' h h' P Q _. destruct i as [|i]; [|destruct i; discriminate P].
    destruct i' as [|i']; [reflexivity|destruct i'; discriminate Q].
Qed.

(** the documentation says a part sent with last=true has HDR.Typ CallDownloadEnd:
    a download of one part never has such a message. *)
Theorem C61_single_part_refuted : exists os,
  let s := run cpx os init in
  os = [ORegister RDown 1; ONewStream KDown 31 1; OBeginStream 0 7 false true; OSrvRead; OStart 0;
        ODown 0 500 true; OEnd 0 9 0; OReply 0; OCliRead; OCliRead; OUserRecv 0; OUserRecv 0] /\
  map mTyp (received 0 (hist s)) = [TDownBegin; TReply] /\ wireS s = [].
Proof. eexists. cbv zeta. split; [reflexivity|]. vm_compute. auto. Qed.
Print Assumptions C61_single_part_refuted.

(** ** C62: cancelling *)

(** with distinct CallIDs, while a function runs its context is only cancelled
    because its own CallID was cancelled or its own deadline can have passed. *)
Theorem C62_only_own_partial : forall cp os p m,
  let s := run cp os init in
  freshIds s -> frame s p m -> running p s -> ctxDone p s ->
  ~ notCancelled (mCall m) s \/ mDl m = true.
Proof.
  intros cp os p m s FI F (j & n & Hj & Hn) (j' & Hj' & Hc). fold s in Hj, Hj'.
  rewrite Hj in Hj'. injection Hj' as <-. destruct (inv_run cp os) as [_ H2 _]. fold s in H2.
  pose proof (frame_job s p m H2 F) as FJ. rewrite Hj in FJ. subst m.
  destruct (f_canc _ (inv4_run cp os FI) p j Hj Hc) as [K|[K|K]].
  - left. intros N. apply notCancelled_no in N. exact (N K).
  - right. exact K.
  - exfalso. rewrite Hn in K. destruct K; discriminate.
Qed.
Print Assumptions C62_only_own_partial.

(** and a cancel request the server gets to while the function runs does cancel
    its context. *)
Theorem C62_cancel_works_partial : forall cp os p q m x,
  let s := run cp os init in
  freshIds s -> sCrash s = false -> frame s p m -> running p s ->
  frame s q x -> mTyp x = TCancel -> mCall x = mCall m ->
  (exists j, nth_error (sJobs s) q = Some j /\ jPh j = JSpawn) ->
  ctxDone p (step cp (OStart q) s).
Proof.
  intros cp os p q m x s FI CR F (j & n & Hj & Hn) Fq TX EX (j' & Hj' & Hs). fold s in Hj, Hj'.
  destruct (inv_run cp os) as [_ H2 _]. fold s in H2.
  pose proof (frame_job s p m H2 F) as FJ. rewrite Hj in FJ.
  pose proof (frame_job s q x H2 Fq) as FQ. rewrite Hj' in FQ.
  destruct (f_run _ (inv4_run cp os FI) p j n Hj Hn) as (_ & HC). fold s in HC.
  cbn [step]. unfold jobStart. rewrite CR, Hj', Hs, FQ, TX, EX. unfold cancelCall. rewrite FJ in HC.
  assert (forall l, nth_error (upd q (setJPh JOver) l) p <> None -> forall y, nth_error l p = Some y -> jCanc y = true ->
    exists z, nth_error (upd q (setJPh JOver) l) p = Some z /\ jCanc z = true) as UP.
  { intros l _ y Hy Cy. rewrite nth_upd, Hy. destruct (Nat.eqb q p); eexists; split; try reflexivity; exact Cy. }
  assert (forall y st0, nth_error (sJobs st0) p = Some y -> jCanc y = true ->
    ctxDone p (setJ q (setJPh JOver) st0)) as US.
  { intros y st0 Hy Cy. unfold ctxDone, setJ. cbn. rewrite nth_upd, Hy.
    destruct (Nat.eqb q p); eexists; (split; [reflexivity|exact Cy]). }
  destruct HC as [HC|(cc & HC & HP)].
  - destruct (mget Z.eqb (mCall m) (sFl s)) as [cc|]; [|eapply US; eassumption].
    destruct (ccCanc cc) as [p'|]; [|eapply US; [exact Hj|exact HC]].
    apply US with (y := if Nat.eqb p' p then setCanc true j else j).
    + unfold setJ. cbn. rewrite nth_upd, Hj. destruct (Nat.eqb p' p); reflexivity.
    + destruct (Nat.eqb p' p); [reflexivity|exact HC].
  - rewrite HC, HP. apply US with (y := setCanc true j); [|reflexivity].
    unfold setJ. cbn. rewrite nth_upd, Hj, Nat.eqb_refl. reflexivity.
Qed.
Print Assumptions C62_cancel_works_partial.

Example C62_cancel_ex :
  let os := [ORegister R2 1; OCall 11 1 100 false; OSendCall 0 true; OSrvRead; OStart 0; OCancel 0; OSendCancel 0 true;
             OSrvRead] in
  let s := run cpx os init in
  freshIds s /\ running 0 s /\ ~ ctxDone 0 s /\ (exists j, nth_error (sJobs s) 1 = Some j /\ jPh j = JSpawn) /\
  ctxDone 0 (step cpx (OStart 1) s) /\ running 0 (step cpx (OStart 1) s) /\ In (ERet 0 RCancelSent) (hist s).
Proof.
  cbv zeta. match goal with |- context [run cpx ?l init] => set (s := run cpx l init) end. vm_compute in s. subst s.
  split; [|split; [|split; [|split; [|split; [|split]]]]].
  - intros p q m m' P Q. unfold frame in *. cbn in P, Q.
    destruct p as [|[|p]]; cbn in P; try (destruct p; discriminate P); injection P as <-; cbn; try discriminate;
    destruct q as [|[|q]]; cbn in Q; try (destruct q; discriminate Q); injection Q as <-; cbn; try discriminate; auto.
  - eexists _, _. split; reflexivity.
  - intros (j & Hj & Hc). cbn in Hj. injection Hj as <-. discriminate Hc.
  - eexists. split; reflexivity.
  - eexists. split; reflexivity.
  - eexists _, _. split; reflexivity.
  - cbn. auto.
Qed.

(** the server starts one goroutine per message, so the cancel request can be dealt
    with before the request is: the caller has been told ErrCancelReqSent, the
    server has nothing left to read, and the function runs with a context nobody
    will cancel. *)
Theorem C62_lost_cancel_refuted : exists os,
  let s := run cpx os init in
  freshIds s /\ In (ERet 0 RCancelSent) (hist s) /\ wireC s = [] /\
  (exists x, frame s 1 x /\ mTyp x = TCancel) /\ (exists j, nth_error (sJobs s) 1 = Some j /\ jPh j = JOver) /\
  running 0 s /\ ~ ctxDone 0 s.
Proof.
  exists [ORegister R2 1; OCall 11 1 100 false; OSendCall 0 true; OCancel 0; OSendCancel 0 true;
          OSrvRead; OSrvRead; OStart 1; OStart 0].
  cbv zeta. match goal with |- context [run cpx ?l init] => set (s := run cpx l init) end. vm_compute in s. subst s.
  split; [|split; [|split; [|split; [|split; [|split]]]]].
  - intros p q m m' P Q. unfold frame in *. cbn in P, Q.
    destruct p as [|[|p]]; cbn in P; try (destruct p; discriminate P); injection P as <-; cbn; try discriminate;
    destruct q as [|[|q]]; cbn in Q; try (destruct q; discriminate Q); injection Q as <-; cbn; try discriminate; auto.
  - cbn. auto.
  - reflexivity.
  - eexists. split; reflexivity.
  - eexists. split; reflexivity.
  - eexists _, _. split; reflexivity.
  - intros (j & Hj & Hc). cbn in Hj. injection Hj as <-. discriminate Hc.
Qed.
Print Assumptions C62_lost_cancel_refuted.

(** the same Message sent again after a timeout has the same CallID: when the first
    function is done, the context of the second is cancelled, though nobody asked
    for it. *)
Theorem C62_repeated_id_refuted : exists os,
  let s := run cpx os init in
  (forall c, notCancelled c s) /\ running 1 s /\ ctxDone 1 s /\
  exists m, frame s 1 m /\ mDl m = false.
Proof.
  exists [ORegister R2 1; OCall 11 1 100 false; OSendCall 0 true; OTimeout 0; OCall 11 1 100 false; OSendCall 1 true;
          OSrvRead; OSrvRead; OStart 0; OStart 1; OEnd 0 5 0; OReply 0; OClean 0].
  cbv zeta. match goal with |- context [run cpx ?l init] => set (s := run cpx l init) end. vm_compute in s. subst s.
  split; [|split; [|split]].
  - intros c (q & x & Q & K & _). unfold frame in Q. cbn in Q.
    destruct q as [|[|q]]; cbn in Q; try (destruct q; discriminate Q); injection Q as <-; discriminate K.
  - eexists _, _. split; reflexivity.
  - eexists. split; reflexivity.
  - eexists. split; reflexivity.
Qed.
Print Assumptions C62_repeated_id_refuted.

(** ** C63: services that are not registered *)

(** a request, when its goroutine starts and nothing is registered for it: no
    function runs, and while the connection is up one error is sent back with its
    Seqno and CallID. *)
Theorem C63_error_answer : forall cp os p j,
  let s := run cp os init in
  nth_error (sJobs s) p = Some j -> jPh j = JSpawn -> sCrash s = false ->
  mTyp (jReq j) = TRPC \/ mTyp (jReq j) = TOneWay \/ starts (mTyp (jReq j)) = true ->
  (forall k, isReg k (mSvc (jReq j)) s = false) ->
  forall os', let s' := run cp (os ++ OStart p :: os') init in
  runsFor p (hist s') = [] /\
  (up s = true -> exists r, jobLog p (hist s') = [EAnswer p r] /\ mTyp r = TError /\
    mSeq r = mSeq (jReq j) /\ mCall r = mCall (jReq j)).
Proof.
  intros cp os p j s Hj Hs CR HT HR os' s'.
  destruct (inv_run cp os) as [_ H2 _]. fold s in H2.
  assert (tr p s = []) as T0 by (pose proof (v_tr _ H2 p) as V; rewrite Hj in V; unfold skel in V; rewrite Hs in V; exact V).
  set (e := errOf (jReq j)).
  assert (step cp (OStart p) s = respondErr p (jReq j) s) as ES.
  { cbn [step]. unfold jobStart. rewrite CR, Hj, Hs. rewrite !HR.
    destruct HT as [HT|[HT|HT]]; try (rewrite HT; reflexivity). destruct (mTyp (jReq j)); try discriminate HT; reflexivity. }
  assert (s' = run cp os' (step cp (OStart p) s)) as E' by (unfold s'; rewrite run_app; reflexivity).
  (* from then on the record of p stays as it is *)
  assert (forall os1 s1,
    (exists j1, nth_error (sJobs s1) p = Some j1 /\ jReq j1 = jReq j /\ (jPh j1 = JErr \/ jPh j1 = JOver)) ->
    tr p (run cp os1 s1) = tr p s1) as KEEP.
  { clear. induction os1 as [|o r IH]; intros s1 (j1 & H1 & H2 & H3); [reflexivity|]. cbn [run].
    pose proof (jtq_step cp o s1 p) as J. unfold jtq in J. rewrite H1 in J.
    destruct (nth_error (sJobs (step cp o s1)) p) as [j2|] eqn:E2; [|destruct J].
    destruct J as (J1 & evs & J2 & J3).
    assert (evs = [] /\ (jPh j2 = JErr \/ jPh j2 = JOver)) as [EV P2].
    { inversion J2; subst; try (destruct H3 as [H3|H3]; rewrite H3 in *; discriminate); auto.
      rewrite H. auto. }
    rewrite IH; [rewrite J3, EV, app_nil_r; reflexivity|]. exists j2. split; [exact E2|]. split; [congruence|exact P2]. }
  assert (tr p s' = tr p (step cp (OStart p) s)) as K.
  { rewrite E'. apply KEEP. rewrite ES. unfold respondErr, setJ, sWrite, log. 
    destruct (up s); cbn; rewrite nth_upd, Nat.eqb_refl, Hj; cbn; eexists; (split; [reflexivity|]); auto. }
  rewrite runs_tr. change (jobLog p (hist s')) with (tr p s'). rewrite K, ES.
  unfold respondErr, sWrite. destruct (up s) eqn:EU.
  - assert (tr p (setJ p (setJPh JErr) (log (EAnswer p e) (setWireS (wireS s ++ [e]) s))) = [EAnswer p e]) as TE.
    { change (tr p (setJ p (setJPh JErr) (log (EAnswer p e) (setWireS (wireS s ++ [e]) s))))
        with (tr p (log (EAnswer p e) (setWireS (wireS s ++ [e]) s))).
      rewrite tr_log. change (tr p (setWireS (wireS s ++ [e]) s)) with (tr p s). rewrite T0. cbn.
      rewrite Nat.eqb_refl. reflexivity. }
    change (mkMsg TError (mSeq (jReq j)) (mCall (jReq j)) (mSvc (jReq j)) (mPart (jReq j)) 0 (mErr (jReq j)) (mDl (jReq j)))
      with e. rewrite TE. split; [reflexivity|]. intros _. exists e. repeat split.
  - change (tr p (setJ p (setJPh JErr) s)) with (tr p s). rewrite T0. split; [reflexivity|discriminate].
Qed.
Print Assumptions C63_error_answer.

Definition unknownService : list op :=
  [ORegister R2 1; OCall 11 1 100 false; OCall 12 9 200 false; OSendCall 0 true; OSendCall 1 true; OSrvRead; OSrvRead;
   OStart 0; OStart 1; OCliRead; OReturn 1].

Example C63_error_answer_ex :
  let s := run cpx (firstn 8 unknownService) init in
  (exists j, nth_error (sJobs s) 1 = Some j /\ jPh j = JSpawn /\ mTyp (jReq j) = TRPC /\
     forall k, isReg k (mSvc (jReq j)) s = false) /\ up s = true.
Proof.
  vm_compute. split; [|reflexivity]. eexists. split; [reflexivity|]. split; [reflexivity|]. split; [reflexivity|].
  intros k. destruct k; reflexivity.
Qed.

(** but SendAndGetReply reports no error: it returns the message of type CallError
    as a reply, with an empty JobErrs; *)
Theorem C63_nil_error_refuted :
  let s := run cpx unknownService init in
  In (ERet 1 (RReply (mkMsg TError 2 12 9 0 0 0 false))) (hist s) /\ runsFor 1 (hist s) = [].
Proof. vm_compute. auto 12. Qed.
Print Assumptions C63_nil_error_refuted.

(** the connection is down, and call 0 has no reply. *)
Definition dead0 (s : st) : Prop :=
  up s = false /\
  match nth_error (cCalls s) 0 with
  | Some c => (forall r, kDone c <> DWith r) /\ (forall r, kPh c <> PRet (RReply r))
  | None => False
  end.

Lemma dead0_step : forall cp o s, dead0 s -> dead0 (step cp o s).
Proof.
  intros cp o s [U D]. destruct (callOp o) eqn:EO.
  - destruct (nth_error (cCalls s) 0) as [c|] eqn:E0; [|destruct D].
    assert (forall k f, (forall c, (forall r, kDone c <> DWith r) -> (forall r, kPh c <> PRet (RReply r)) ->
      nth_error (cCalls s) k = Some c -> (forall r, kDone (f c) <> DWith r) /\ (forall r, kPh (f c) <> PRet (RReply r))) ->
      match nth_error (upd k f (cCalls s)) 0 with
      | Some c => (forall r, kDone c <> DWith r) /\ (forall r, kPh c <> PRet (RReply r))
      | None => False
      end) as UPD.
    { intros k f Hf. rewrite nth_upd, E0. destruct (Nat.eqb k 0) eqn:EK; [|exact D]. apply Nat.eqb_eq in EK. subst k.
      apply Hf; [apply D|apply D|exact E0]. }
    assert (dead0 s) as DS by (split; [exact U|rewrite E0; exact D]).
    destruct o; try discriminate EO; cbn [step].
    + split; [exact U|]. unfold callBegin, log. cbn. destruct (cCalls s); [discriminate E0|]. cbn in *. 
      injection E0 as ->. exact D.
    + unfold sendCall. destruct (nth_error (cCalls s) k) as [ck|] eqn:Ek; [|exact DS]. destruct (kPh ck) eqn:EP; try exact DS.
      rewrite U. cbn [andb]. split; [exact U|]. cbn. apply UPD. intros x X1 X2 X3. cbn. split; discriminate.
    + unfold callReturn. destruct (nth_error (cCalls s) k) as [ck|] eqn:Ek; [|exact DS].
      destruct (kPh ck) eqn:EP; try exact DS. destruct (kDone ck) eqn:ED; try exact DS.
      * split; [exact U|]. cbn. apply UPD. intros x X1 X2 X3. cbn. split; [exact X1|discriminate].
      * split; [exact U|]. cbn. apply UPD. intros x X1 X2 X3. rewrite Ek in X3. injection X3 as <-. destruct (X1 _ ED).
    + unfold callTimeout. destruct (nth_error (cCalls s) k) as [ck|] eqn:Ek; [|exact DS].
      destruct (kPh ck) eqn:EP; try exact DS; (split; [exact U|]; cbn; apply UPD; intros x X1 X2 X3; cbn; split; [exact X1|discriminate]).
    + unfold callCancel. destruct (nth_error (cCalls s) k) as [ck|] eqn:Ek; [|exact DS].
      destruct (kPh ck) eqn:EP; try exact DS; (split; [exact U|]; cbn; apply UPD; intros x X1 X2 X3; cbn; split; [exact X1|discriminate]).
    + unfold sendCancel. destruct (nth_error (cCalls s) k) as [ck|] eqn:Ek; [|exact DS].
      destruct (kPh ck) eqn:EP; try exact DS. unfold cWrite. rewrite U. cbn [andb].
      split; [exact U|]; cbn; apply UPD; intros x X1 X2 X3; cbn; split; [exact X1|discriminate].
    + unfold callShut. rewrite U. destruct (nth_error (cCalls s) k) as [ck|] eqn:Ek; [|exact DS].
      destruct (kPh ck) eqn:EP; try exact DS; (split; [exact U|]; cbn; apply UPD; intros x X1 X2 X3; cbn; split; [exact X1|discriminate]).
    + unfold cliRead. rewrite U. exact DS.
  - split.
    + destruct (up (step cp o s)) eqn:EU; [|reflexivity]. apply up_step in EU. congruence.
    + rewrite (e_calls _ _ (ext3_step cp o s EO)). exact D.
Qed.

(** and three seconds later the server closes the connection under everyone: no
    schedule lets the other call, whose function is still running, return a
    reply. *)
Theorem C63_others_lost_refuted :
  let s := run cpx (unknownService ++ [OErrClose 1]) init in
  running 0 s /\
  forall os, up (run cpx os s) = false /\ forall r, ~ In (ERet 0 (RReply r)) (hist (run cpx os s)).
Proof.
  cbv zeta. set (s := run cpx (unknownService ++ [OErrClose 1]) init). split.
  - eexists _, _. split; vm_compute; reflexivity.
  - assert (dead0 s) as D0.
    { split; [vm_compute; reflexivity|]. vm_compute. split; intros; discriminate. }
    intros os. assert (dead0 (run cpx os s)) as D.
    { revert D0. generalize s as t. induction os as [|o r IH]; intros t Ht; [exact Ht|]. cbn [run]. apply IH.
      apply dead0_step. exact Ht. }
    split; [apply D|]. intros r Hr.
    assert (run cpx os s = run cpx ((unknownService ++ [OErrClose 1]) ++ os) init) as ER by (rewrite run_app; reflexivity).
    destruct D as [_ D]. rewrite ER in D, Hr.
    destruct (inv_run cpx ((unknownService ++ [OErrClose 1]) ++ os)) as [_ _ H3].
    destruct (ret_call _ _ _ H3 Hr) as (c & Hc & Hp). rewrite Hc in D. destruct D as [_ D]. exact (D r Hp).
Qed.
Print Assumptions C63_others_lost_refuted.
