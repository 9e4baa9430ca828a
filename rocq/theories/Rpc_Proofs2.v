(** * Proofs about calls and streams: what the server does for each message *)

From Coq Require Import ZArith NArith List Bool Lia PeanoNat.
From Verif Require Import Rpc_Model Rpc_Proofs.
Import ListNotations.
Local Open Scope Z_scope.

(** ** The trace of one message *)

Definition about (p : nat) (e : event) : bool :=
  match e with
  | ERun q _ | EPart q _ _ | EClean q | EEnd q _ _ | EDown q _ | EAnswer q _ => Nat.eqb q p
  | _ => false
  end.

Definition tr (p : nat) (s : st) : list event := filter (about p) (hist s).

Definition runnable (t : ctyp) : Prop :=
  match t with TRPC | TReqBi | TReqDown | TUpBegin => True | _ => False end.
Definition answerable (t : ctyp) : Prop :=
  match t with TRPC | TReqBi | TReqDown | TUpBegin | TOneWay => True | _ => False end.

Definition replyOf (rq : msg) (body err : Z) : msg :=
  mkMsg TReply (mSeq rq) (mCall rq) (mSvc rq) 0 body err (mDl rq).
Definition errOf (rq : msg) : msg :=
  mkMsg TError (mSeq rq) (mCall rq) (mSvc rq) (mPart rq) 0 (mErr rq) (mDl rq).

Definition bodyEv (p : nat) (rq : msg) (e : event) : Prop :=
  match e with
  | EPart q _ _ => q = p /\ (mTyp rq = TUpBegin \/ mTyp rq = TReqBi)
  | EDown q m => q = p /\ mSeq m = mSeq rq /\ mCall m = mCall rq /\
                 (mTyp rq = TReqDown \/ mTyp rq = TReqBi)
  | _ => False
  end.

Definition fin (p : nat) (rq : msg) (body err : Z) : event :=
  match mTyp rq with TUpBegin => EClean p | _ => EEnd p body err end.

Definition skelRun (p : nat) (rq : msg) (l : list event) : Prop :=
  runnable (mTyp rq) /\ exists b, Forall (bodyEv p rq) b /\ l = ERun p rq :: b.
Definition skelRet (p : nat) (rq : msg) (b0 e0 : Z) (l : list event) : Prop :=
  runnable (mTyp rq) /\
  exists b, Forall (bodyEv p rq) b /\ l = ERun p rq :: b ++ [fin p rq b0 e0].
Definition skelAns (u : bool) (p : nat) (rq : msg) (l : list event) : Prop :=
  runnable (mTyp rq) /\
  exists b b0 e0, Forall (bodyEv p rq) b /\
    ((u = false /\ l = ERun p rq :: b ++ [fin p rq b0 e0]) \/
     l = ERun p rq :: b ++ [fin p rq b0 e0; EAnswer p (replyOf rq b0 e0)]).
Definition skelErr (u : bool) (p : nat) (rq : msg) (l : list event) : Prop :=
  answerable (mTyp rq) /\ ((u = false /\ l = []) \/ l = [EAnswer p (errOf rq)]).

Definition skel (u : bool) (p : nat) (j : job) (l : list event) : Prop :=
  let rq := jReq j in
  match jPh j with
  | JPart => l = [] /\ (mTyp rq = TUpMore \/ mTyp rq = TUpEnd)
  | JSpawn => l = []
  | JRun _ => skelRun p rq l
  | JRet b0 e0 => skelRet p rq b0 e0 l
  | JReplied => skelAns u p rq l
  | JErr => skelErr u p rq l
  | JOver =>
      (~ answerable (mTyp rq) /\ l = []) \/
      (mTyp rq = TOneWay /\ l = [ERun p rq]) \/
      skelErr u p rq l \/ skelAns u p rq l
  end.

Record inv2 (s : st) : Prop := mkInv2 {
  v_fifo : map fst (sent s) = map jReq (sJobs s) ++ wireC s;
  v_tr : forall p, match nth_error (sJobs s) p with
                   | Some j => skel (up s) p j (tr p s)
                   | None => tr p s = []
                   end;
  v_wire : forall m, In m (wireS s) ->
    In (EPush m) (hist s) \/ exists p, In (EAnswer p m) (hist s) \/ In (EDown p m) (hist s) }.

Lemma inv2_init : inv2 init.
Proof.
  constructor; cbn; try reflexivity.
  - intros p. destruct p; reflexivity.
  - intros m [].
Qed.

Lemma skel_down : forall p j l u, skel u p j l -> skel false p j l.
Proof.
  intros p j l u H. unfold skel in *. destruct (jPh j); auto.
  - destruct H as (H1 & b & b0 & e0 & H2 & [[E H3]|H3]); split; auto; exists b, b0, e0; auto.
  - destruct H as (H1 & [[E H3]|H3]); split; auto.
  - destruct H as [H|[H|[H|H]]]; auto.
    + right. right. left. destruct H as (H1 & [[E H3]|H3]); split; auto.
    + right. right. right.
      destruct H as (H1 & b & b0 & e0 & H2 & [[E H3]|H3]); split; auto; exists b, b0, e0; auto.
Qed.

(** only the request and the phase matter. *)
Lemma skel_eq : forall u p j j' l,
  jReq j = jReq j' -> jPh j = jPh j' -> skel u p j l -> skel u p j' l.
Proof. intros u p j j' l E1 E2. unfold skel. rewrite E1, E2. auto. Qed.

Lemma tr_log : forall p e s,
  tr p (log e s) = tr p s ++ (if about p e then [e] else []).
Proof.
  intros. unfold tr, log. cbn. rewrite filter_app. cbn. destruct (about p e); reflexivity.
Qed.

(** ** Steps that leave the jobs alone *)

Record same2 (s s' : st) : Prop := mkSame2 {
  s_jobs : sJobs s' = sJobs s;
  s_up : up s' = up s \/ up s' = false;
  s_tr : forall p, tr p s' = tr p s;
  s_sent : exists l, map fst (sent s') = map fst (sent s) ++ l /\ wireC s' = wireC s ++ l;
  s_wire : forall m, In m (wireS s') -> In m (wireS s);
  s_hist : forall e, In e (hist s) -> In e (hist s') }.

Lemma same2_inv : forall s s', inv2 s -> same2 s s' -> inv2 s'.
Proof.
  intros s s' [H1 H2 H3] [E1 E2 E3 (l & E4 & E5) E6 E7]. constructor.
  - rewrite E4, E5, E1, H1, app_assoc. reflexivity.
  - intros p. rewrite E1, E3. specialize (H2 p). destruct (nth_error (sJobs s) p); auto.
    destruct E2 as [E2|E2]; rewrite E2; [exact H2|]. eapply skel_down. exact H2.
  - intros m Hm. apply E6, H3 in Hm. destruct Hm as [Hm|(p & [Hm|Hm])]; eauto.
Qed.

Lemma same2_refl : forall s, same2 s s.
Proof.
  intros s. constructor; auto. exists []. rewrite !app_nil_r. auto.
Qed.

Lemma same2_trans : forall a b c, same2 a b -> same2 b c -> same2 a c.
Proof.
  intros a b c [A1 A2 A3 (l & A4 & A5) A6 A7] [B1 B2 B3 (l' & B4 & B5) B6 B7]. constructor.
  - congruence.
  - destruct B2 as [->| ->]; auto.
  - intros p. rewrite B3, A3. reflexivity.
  - exists (l ++ l'). rewrite B4, B5, A4, A5, !app_assoc. auto.
  - auto.
  - auto.
Qed.

Lemma same2_log : forall e s, (forall p, about p e = false) -> same2 s (log e s).
Proof.
  intros e s H. constructor; cbn; auto.
  - intros p. unfold tr. cbn [hist log setHist]. unfold log. cbn. rewrite filter_app. cbn. rewrite H, app_nil_r. reflexivity.
  - exists []. rewrite !app_nil_r. auto.
  - intros x Hx. apply in_app_iff. auto.
Qed.

Lemma same2_write : forall ok m o s, same2 s (cWrite ok m o s).
Proof.
  intros ok m o s. unfold cWrite. destruct (up s && ok); [|apply same2_refl].
  constructor; cbn; auto. exists [m]. rewrite map_app. auto.
Qed.

(** fields the jobs, the wire and the history do not depend on. *)
Definition irr (s s' : st) : Prop :=
  sJobs s' = sJobs s /\ up s' = up s /\ hist s' = hist s /\ sent s' = sent s /\
  wireC s' = wireC s /\ wireS s' = wireS s.

Lemma same2_irr : forall s s', irr s s' -> same2 s s'.
Proof.
  intros s s' (E1 & E2 & E3 & E4 & E5 & E6). constructor; auto.
  - intros p. unfold tr. rewrite E3. reflexivity.
  - exists []. rewrite !app_nil_r, E4, E5. auto.
  - rewrite E6. auto.
  - rewrite E3. auto.
Qed.

Lemma same2_ret : forall k r s, same2 s (ret k r s).
Proof.
  intros. unfold ret.
  eapply same2_trans; [|apply same2_log; reflexivity].
  apply same2_irr. repeat split.
Qed.

Lemma tell_irr : forall cp cs m s, irr s (tell cp cs m s).
Proof.
  induction cs as [|c r IH]; intros m s; cbn; [repeat split|].
  destruct (room cp c s); [|apply IH].
  destruct (IH m (put c m s)) as (E1 & E2 & E3 & E4 & E5 & E6). repeat split; assumption.
Qed.

Definition jobOp (o : op) : bool :=
  match o with
  | OSrvRead | OStart _ | OErrClose _ | OUpPart _ _ _ | OUpCanc _
  | OBiRecv _ | ODown _ _ _ | OEnd _ _ _ | OReply _ | OClean _ | ODeadline _
  | OPush _ _ _ => true
  | _ => false
  end.

Ltac irr2 := apply same2_irr; repeat split.

Lemma same2_step : forall cp o s, jobOp o = false -> same2 s (step cp o s).
Proof.
  intros cp o s H. destruct o; try discriminate H; clear H; cbn [step].
  - eapply same2_trans; [|apply same2_log; reflexivity]. irr2.
  - unfold sendCall. destruct (nth_error (cCalls s) k) as [c|]; [|apply same2_refl].
    destruct (kPh c); try apply same2_refl.
    cbn. destruct (up s && ok); [|irr2].
    eapply same2_trans; [|apply same2_write]. irr2.
  - unfold callReturn. dm; try apply same2_refl; apply same2_ret.
  - unfold callTimeout. dm; try apply same2_refl; apply same2_ret.
  - unfold callCancel. dm; try apply same2_refl; try apply same2_ret. irr2.
  - unfold sendCancel. dm; try apply same2_refl.
    eapply same2_trans; [apply same2_write|apply same2_ret].
  - unfold callShut. dm; try apply same2_refl; apply same2_ret.
  - unfold oneWay. eapply same2_trans; [|apply same2_write]. destruct (seq =? 0)%N; irr2.
  - destruct k; irr2.
  - unfold beginStream. dm; try apply same2_refl; apply same2_write.
  - unfold upBegin. cbn. destruct (up s && ok); [|irr2].
    eapply same2_trans; [|apply same2_write]. irr2.
  - unfold upReg. destruct (nth_error (cStrm s) i) as [h|]; [|apply same2_refl].
    destruct (sKind h); try apply same2_refl. destruct (sReg h); try apply same2_refl. irr2.
  - unfold upMore. dm; try apply same2_refl;
    (eapply same2_trans; [|apply same2_write]; irr2).
  - unfold closeStream. dm; try apply same2_refl; apply same2_write.
  - irr2.
  - unfold cliRead. destruct (up s) eqn:EU; [|apply same2_refl].
    destruct (wireS s) as [|m r] eqn:EW; [apply same2_refl|].
    assert (same2 s (setWireS r s)) as H0.
    { constructor; cbn; auto.
      - exists []. rewrite !app_nil_r. auto.
      - rewrite EW. cbn. auto. }
    destruct (wants m s) as [c|].
    + destruct (room cp c s); [|apply same2_refl].
      eapply same2_trans; [exact H0|irr2].
    + cbn. destruct (mget N.eqb (mSeq m) (cOnce s)).
      * eapply same2_trans; [exact H0|irr2].
      * eapply same2_trans; [exact H0|]. apply same2_irr, tell_irr.
  - unfold userRecv. destruct (nth_error (cChan s) c) as [[|m q]|]; try apply same2_refl.
    eapply same2_trans; [|apply same2_log; reflexivity]. irr2.
  - constructor; cbn; auto. exists []. rewrite !app_nil_r. auto.
  - irr2.
  - unfold srvPart. dm; try apply same2_refl; irr2.
Qed.

(** ** Steps of the jobs *)

(** what one job step at p does: only job p gets a new phase, only events about p
    are logged. *)
Record jstep (s s' : st) (p : nat) (j j' : job) (evs : list event) : Prop := mkJstep {
  t_old : nth_error (sJobs s) p = Some j;
  t_new : nth_error (sJobs s') p = Some j';
  t_req : jReq j' = jReq j;
  t_oth : forall q, q <> p -> match nth_error (sJobs s) q, nth_error (sJobs s') q with
                              | Some a, Some b => jReq b = jReq a /\ jPh b = jPh a
                              | None, None => True
                              | _, _ => False
                              end;
  t_hist : hist s' = hist s ++ evs;
  t_about : Forall (fun e => about p e = true) evs;
  t_up : up s' = up s \/ up s' = false;
  t_sent : sent s' = sent s /\ wireC s' = wireC s;
  t_wire : forall m, In m (wireS s') -> In m (wireS s) \/ In (EAnswer p m) evs \/ In (EDown p m) evs }.

Lemma filter_all : forall {A} (f : A -> bool) l, Forall (fun e => f e = true) l -> filter f l = l.
Proof.
  intros A f l H. induction H as [|x r H1 H2 IH]; cbn; [reflexivity|].
  rewrite H1, IH. reflexivity.
Qed.

Lemma filter_none : forall {A} (f : A -> bool) l, Forall (fun e => f e = false) l -> filter f l = [].
Proof.
  intros A f l H. induction H as [|x r H1 H2 IH]; cbn; [reflexivity|].
  rewrite H1, IH. reflexivity.
Qed.

Lemma about_other : forall p q e, about p e = true -> q <> p -> about q e = false.
Proof.
  intros p q e H N. destruct e; cbn in *; try reflexivity; try discriminate;
  apply Nat.eqb_eq in H; apply Nat.eqb_neq; congruence.
Qed.

Lemma map_jReq_ext : forall l l' : list job, length l = length l' ->
  (forall q, match nth_error l q, nth_error l' q with
             | Some a, Some b => jReq b = jReq a
             | None, None => True
             | _, _ => False
             end) -> map jReq l' = map jReq l.
Proof.
  induction l as [|x r IH]; intros [|y r'] HL H; try discriminate HL; [reflexivity|].
  cbn. f_equal; [exact (H 0%nat)|]. apply IH; [cbn in HL; lia|]. intros q. exact (H (S q)).
Qed.

Lemma jstep_inv : forall s s' p j j' evs,
  inv2 s -> jstep s s' p j j' evs ->
  (skel (up s) p j (tr p s) -> skel (up s') p j' (tr p s ++ evs)) -> inv2 s'.
Proof.
  intros s s' p j j' evs [H1 H2 H3] [T1 T2 T3 T4 T5 T6 T7 [T8 T9] TA] HS.
  assert (forall q, match nth_error (sJobs s) q, nth_error (sJobs s') q with
             | Some a, Some b => jReq b = jReq a
             | None, None => True
             | _, _ => False
             end) as HQ.
  { intros q. destruct (Nat.eq_dec q p) as [->|NE].
    - rewrite T1, T2. exact T3.
    - specialize (T4 q NE). destruct (nth_error (sJobs s) q), (nth_error (sJobs s') q); auto; apply T4. }
  constructor.
  - rewrite T8, T9, H1. f_equal. symmetry. apply map_jReq_ext; [|exact HQ].
    destruct (Nat.lt_trichotomy (length (sJobs s)) (length (sJobs s'))) as [L|[L|L]]; [|exact L|].
    + specialize (HQ (length (sJobs s))).
      assert (nth_error (sJobs s) (length (sJobs s)) = None) as E by (apply nth_error_None; lia).
      rewrite E in HQ. destruct (nth_error (sJobs s') (length (sJobs s))) eqn:E2; [destruct HQ|].
      apply nth_error_None in E2. lia.
    + specialize (HQ (length (sJobs s'))).
      assert (nth_error (sJobs s') (length (sJobs s')) = None) as E by (apply nth_error_None; lia).
      rewrite E in HQ. destruct (nth_error (sJobs s) (length (sJobs s'))) eqn:E2; [destruct HQ|].
      apply nth_error_None in E2. lia.
  - intros q. unfold tr in *. rewrite T5, filter_app.
    destruct (Nat.eq_dec q p) as [->|NE].
    + rewrite T2. rewrite (filter_all _ evs T6). apply HS.
      specialize (H2 p). rewrite T1 in H2. exact H2.
    + rewrite (filter_none _ evs), app_nil_r.
      2:{ eapply Forall_impl; [|exact T6]. intros e He. exact (about_other p q e He NE). }
      specialize (H2 q). specialize (T4 q NE).
      destruct (nth_error (sJobs s) q), (nth_error (sJobs s') q); try contradiction; [|exact H2].
      destruct T4 as [E1 E2]. apply (skel_eq _ _ j0); auto.
      destruct T7 as [->| ->]; [exact H2|]. eapply skel_down. exact H2.
  - intros m Hm. rewrite T5. apply TA in Hm. destruct Hm as [Hm|Hm].
    + apply H3 in Hm. destruct Hm as [Hm|(q & [Hm|Hm])].
      * left. apply in_app_iff. auto.
      * right. exists q. left. apply in_app_iff. auto.
      * right. exists q. right. apply in_app_iff. auto.
    + right. exists p. destruct Hm as [Hm|Hm]; [left|right]; apply in_app_iff; auto.
Qed.

(** ** Building a job step *)

Lemma jstep_upd : forall s s' p f j evs,
  nth_error (sJobs s) p = Some j -> jReq (f j) = jReq j ->
  sJobs s' = upd p f (sJobs s) -> hist s' = hist s ++ evs ->
  Forall (fun e => about p e = true) evs ->
  (up s' = up s \/ up s' = false) -> sent s' = sent s -> wireC s' = wireC s ->
  (forall m, In m (wireS s') -> In m (wireS s) \/ In (EAnswer p m) evs \/ In (EDown p m) evs) ->
  jstep s s' p j (f j) evs.
Proof.
  intros s s' p f j evs H1 H2 H3 H4 H5 H6 H7 H8 H9. constructor; auto.
  - rewrite H3, nth_upd, Nat.eqb_refl, H1. reflexivity.
  - intros q NE. rewrite H3, nth_upd. destruct (Nat.eqb_spec p q) as [->|_]; [contradiction|].
    destruct (nth_error (sJobs s) q); auto.
Qed.

(** changes of contexts and stream channels only. *)
Definition soft (s s' : st) : Prop :=
  (forall q, match nth_error (sJobs s) q, nth_error (sJobs s') q with
             | Some a, Some b => jReq b = jReq a /\ jPh b = jPh a
             | None, None => True
             | _, _ => False
             end) /\
  up s' = up s /\ hist s' = hist s /\ sent s' = sent s /\ wireC s' = wireC s /\ wireS s' = wireS s.

Lemma soft_refl : forall s, soft s s.
Proof. intros s. split; [|repeat split]. intros q. destruct (nth_error (sJobs s) q); auto. Qed.

Lemma soft_trans : forall a b c, soft a b -> soft b c -> soft a c.
Proof.
  intros a b c (A1 & A2 & A3 & A4 & A5 & A6) (B1 & B2 & B3 & B4 & B5 & B6).
  split; [|repeat split; congruence].
  intros q. specialize (A1 q). specialize (B1 q).
  destruct (nth_error (sJobs a) q), (nth_error (sJobs b) q), (nth_error (sJobs c) q);
    try contradiction; auto.
  destruct A1, B1. split; congruence.
Qed.

Lemma soft_setJ : forall s p f, (forall j, jReq (f j) = jReq j /\ jPh (f j) = jPh j) -> soft s (setJ p f s).
Proof.
  intros s p f H. split; [|repeat split]. intros q. unfold setJ. cbn. rewrite nth_upd.
  destruct (nth_error (sJobs s) q) as [j|]; destruct (Nat.eqb p q); cbn; auto.
Qed.

Lemma soft_flight : forall p m c s, soft s (regFlight p m c s).
Proof.
  intros p m c s. unfold regFlight.
  assert (forall l ch, soft s (setSFl l (setJ p (setStrm (Some (length (sChan s)))) (setSChan ch s)))) as HH.
  { intros l ch. eapply soft_trans; [|split; [|repeat split]].
    - apply (soft_setJ s p (setStrm (Some (length (sChan s))))). intros j. split; reflexivity.
    - intros q. cbn. destruct (nth_error _ q); auto. }
  assert (forall l, soft s (setSFl l s)) as HL.
  { intros l. split; [|repeat split]. intros q. cbn. destruct (nth_error _ q); auto. }
  dm; auto.
Qed.

Lemma soft_cancel : forall c s, soft s (cancelCall c s).
Proof.
  intros c s. unfold cancelCall. destruct (mget Z.eqb c (sFl s)) as [cc|]; [|apply soft_refl].
  destruct (ccCanc cc) as [p|].
  - eapply soft_trans; [apply (soft_setJ s p (setCanc true)); intros j; split; reflexivity|].
    split; [|repeat split]. intros q. cbn. destruct (nth_error _ q); auto.
  - split; [|repeat split]. intros q. cbn. destruct (nth_error _ q); auto.
Qed.

Lemma soft_inv : forall s s', inv2 s -> soft s s' -> inv2 s'.
Proof.
  intros s s' [H1 H2 H3] (E1 & E2 & E3 & E4 & E5 & E6). constructor.
  - rewrite E4, E5, H1. f_equal. symmetry. apply map_jReq_ext.
    + destruct (Nat.lt_trichotomy (length (sJobs s)) (length (sJobs s'))) as [L|[L|L]]; [|exact L|].
      * specialize (E1 (length (sJobs s))).
        assert (nth_error (sJobs s) (length (sJobs s)) = None) as E by (apply nth_error_None; lia).
        rewrite E in E1. destruct (nth_error (sJobs s') (length (sJobs s))) eqn:Q; [destruct E1|].
        apply nth_error_None in Q. lia.
      * specialize (E1 (length (sJobs s'))).
        assert (nth_error (sJobs s') (length (sJobs s')) = None) as E by (apply nth_error_None; lia).
        rewrite E in E1. destruct (nth_error (sJobs s) (length (sJobs s'))) eqn:Q; [destruct E1|].
        apply nth_error_None in Q. lia.
    + intros q. specialize (E1 q). destruct (nth_error (sJobs s) q), (nth_error (sJobs s') q); tauto.
  - intros p. unfold tr in *. rewrite E2, E3. specialize (E1 p). specialize (H2 p).
    destruct (nth_error (sJobs s) p) as [a|], (nth_error (sJobs s') p) as [b|]; try contradiction; [|exact H2].
    destruct E1. apply (skel_eq _ _ a); auto.
  - rewrite E3, E6. exact H3.
Qed.

(** a soft change followed by one new phase and some events. *)
Lemma soft_then : forall s s1 s' p f j evs,
  inv2 s -> soft s s1 ->
  nth_error (sJobs s) p = Some j -> (forall x, jReq (f x) = jReq x) ->
  (forall x y, jPh (f x) = jPh (f y)) ->
  sJobs s' = upd p f (sJobs s1) -> hist s' = hist s1 ++ evs ->
  Forall (fun e => about p e = true) evs ->
  (up s' = up s1 \/ up s' = false) -> sent s' = sent s1 -> wireC s' = wireC s1 ->
  (forall m, In m (wireS s') -> In m (wireS s1) \/ In (EAnswer p m) evs \/ In (EDown p m) evs) ->
  (skel (up s) p j (tr p s) -> skel (up s') p (f j) (tr p s ++ evs)) ->
  inv2 s'.
Proof.
  intros s s1 s' p f j evs HI HS Hj Hf Hp E1 E2 E3 E4 E5 E6 E7 HK.
  pose proof (soft_inv _ _ HI HS) as HI1.
  destruct HS as (S1 & S2 & S3 & S4 & S5 & S6).
  pose proof (S1 p) as Sp. rewrite Hj in Sp.
  destruct (nth_error (sJobs s1) p) as [j1|] eqn:Ej1; [|destruct Sp]. destruct Sp as [Sp1 Sp2].
  eapply (jstep_inv s1 s' p j1 (f j1) evs); [exact HI1| |].
  - apply jstep_upd; auto.
  - intros HK1. unfold tr in *. rewrite S3 in *. rewrite S2 in HK1.
    apply (skel_eq _ _ (f j)); [rewrite !Hf; congruence|apply Hp|].
    apply HK. apply (skel_eq _ _ j1); auto.
Qed.

Lemma write_inv2 : forall m e s s', s' = sWrite m e s ->
  (up s = true /\ hist s' = hist s ++ [e] /\ wireS s' = wireS s ++ [m]) \/
  (up s = false /\ hist s' = hist s ++ [] /\ wireS s' = wireS s).
Proof.
  intros m e s s' ->. unfold sWrite, log. destruct (up s); cbn; [left|right]; auto.
  rewrite app_nil_r. auto.
Qed.

(** what one job step does to the trace. *)
Lemma skel_start : forall u p j l, skel u p j l -> jPh j = JSpawn -> l = [].
Proof. intros u p j l H E. unfold skel in H. rewrite E in H. exact H. Qed.

Lemma abp : forall p e, about p e = true -> Forall (fun e => about p e = true) [e].
Proof. intros. constructor; auto. Qed.

Ltac st2 := reflexivity || (apply abp; apply Nat.eqb_refl) || (cbn; auto; fail).

Lemma respondErr_inv : forall s p j, inv2 s -> nth_error (sJobs s) p = Some j ->
  jPh j = JSpawn -> answerable (mTyp (jReq j)) -> inv2 (respondErr p (jReq j) s).
Proof.
  intros s p j HI Hj Hp HA. unfold respondErr, sWrite. fold (errOf (jReq j)).
  destruct (up s) eqn:EU.
  - eapply (soft_then s s _ p (setJPh JErr) j [EAnswer p (errOf (jReq j))]);
      eauto using soft_refl; try st2.
    + cbn. intros m Hm. apply in_app1 in Hm. destruct Hm as [Hm|<-]; auto.
    + intros HK. apply skel_start in HK; [|exact Hp]. rewrite HK.
      split; [exact HA|]. right. reflexivity.
  - eapply (soft_then s s _ p (setJPh JErr) j []); eauto using soft_refl; try st2.
    + cbn. rewrite app_nil_r. reflexivity.
    + intros HK. apply skel_start in HK; [|exact Hp]. rewrite HK. cbn.
      split; [exact HA|]. left. auto.
Qed.

Lemma inv2_step : forall cp o s, inv2 s -> inv2 (step cp o s).
Proof.
  intros cp o s HI. destruct (jobOp o) eqn:EO.
  2:{ eapply same2_inv; [exact HI|apply same2_step; exact EO]. }
  destruct o; try discriminate EO; clear EO; cbn [step].
  - (* OSrvRead *)
    unfold srvRead. destruct (srvUp s); [|exact HI].
    destruct (sBlk s); [exact HI|]. destruct (wireC s) as [|m r] eqn:EW; [exact HI|].
    assert (forall ph, (ph = JSpawn \/ (ph = JPart /\ (mTyp m = TUpMore \/ mTyp m = TUpEnd))) ->
      inv2 (setSJobs (sJobs s ++ [mkJob m ph false None 0]) (setWireC r s))) as H0.
    { intros ph Hph. destruct HI as [H1 H2 H3]. constructor; cbn; auto.
      - rewrite H1, EW, map_app, <- app_assoc. reflexivity.
      - intros p. unfold tr. cbn. specialize (H2 p). unfold tr in H2.
        destruct (nth_error (sJobs s ++ _) p) as [j|] eqn:E.
        + apply nth_app1 in E. destruct E as [E|[-> <-]]; [rewrite E in H2; exact H2|].
          assert (nth_error (sJobs s) (length (sJobs s)) = None) as EN by (apply nth_error_None; lia).
          rewrite EN in H2. rewrite H2. destruct Hph as [->|[-> HT]]; cbn; auto.
        + destruct (nth_error (sJobs s) p) eqn:E2; [|exact H2].
          assert (nth_error (sJobs s ++ [mkJob m ph false None 0]) p = Some j) as K
            by (apply nth_app1; auto). congruence. }
    assert (inv2 (setSJobs (sJobs s ++ [mkJob m JSpawn false None 0]) (setWireC r s))) as HS
      by (apply H0; auto).
    destruct (mTyp m) eqn:ET; try exact HS.
    + eapply soft_inv; [exact HS|apply soft_flight].
    + cbn. destruct (mget Z.eqb (mCall m) (sFl s)); [|apply H0; auto].
      eapply soft_inv; [apply (H0 JPart); auto|].
      split; [|repeat split]. intros q. cbn. destruct (nth_error _ q); auto.
    + cbn. destruct (mget Z.eqb (mCall m) (sFl s)); [|apply H0; auto].
      eapply soft_inv; [apply (H0 JPart); auto|].
      split; [|repeat split]. intros q. cbn. destruct (nth_error _ q); auto.
    + eapply soft_inv; [exact HS|apply soft_flight].
  - (* OStart *)
    unfold jobStart. destruct (sCrash s); [exact HI|].
    destruct (nth_error (sJobs s) p) as [j|] eqn:Ej; [|exact HI].
    destruct (jPh j) eqn:Ep; try exact HI.
    assert (forall k, runnable (mTyp (jReq j)) ->
      inv2 (if isReg k (mSvc (jReq j)) s
            then log (ERun p (jReq j)) (setJ p (setJPh (JRun 0)) (regFlight p (jReq j) (Some p) s))
            else respondErr p (jReq j) s)) as HG.
    { intros k HR. destruct (isReg k (mSvc (jReq j)) s).
      - eapply (soft_then s (regFlight p (jReq j) (Some p) s) _ p (setJPh (JRun 0)) j [ERun p (jReq j)]);
          eauto using soft_flight; try st2.
        intros HK. apply skel_start in HK; [|exact Ep]. rewrite HK.
        split; [exact HR|]. exists []. auto.
      - apply (respondErr_inv s p j); auto. destruct (mTyp (jReq j)); cbn in *; auto. }
    assert (~ answerable (mTyp (jReq j)) -> forall s1, soft s s1 -> inv2 (setJ p (setJPh JOver) s1)) as HO.
    { intros NA s1 HS1. eapply (soft_then s s1 _ p (setJPh JOver) j []); eauto; try st2.
      - cbn. rewrite app_nil_r. reflexivity.
      - intros HK. apply skel_start in HK; [|exact Ep]. rewrite HK. left. auto. }
    destruct (mTyp (jReq j)) eqn:ET;
      try (apply HG; exact I);
      try (apply HO; [intros []|apply soft_refl]).
    + destruct (isReg R1 (mSvc (jReq j)) s).
      * eapply (soft_then s s _ p (setJPh JOver) j [ERun p (jReq j)]); eauto using soft_refl; try st2.
        intros HK. apply skel_start in HK; [|exact Ep]. rewrite HK. right. left. auto.
      * apply (respondErr_inv s p j); auto. rewrite ET. exact I.
    + apply HO; [intros []|apply soft_cancel].
  - (* OErrClose *)
    unfold jobErrClose. destruct (sCrash s); [exact HI|].
    destruct (nth_error (sJobs s) p) as [j|] eqn:Ej; [|exact HI].
    destruct (jPh j) eqn:Ep; try exact HI.
    eapply (soft_then s s _ p (setJPh JOver) j []); eauto using soft_refl; try st2.
    + cbn. rewrite app_nil_r. reflexivity.
    + intros HK. rewrite app_nil_r. apply skel_down in HK. unfold skel in HK. rewrite Ep in HK.
      right. right. left. exact HK.
  - (* OUpPart *)
    unfold jobUpPart. destruct (sCrash s); [exact HI|].
    destruct (nth_error (sJobs s) p) as [j|] eqn:Ej; [|exact HI].
    destruct (jPh j) eqn:Ep; try exact HI.
    destruct (mTyp (jReq j)) eqn:ET; try exact HI.
    destruct (jStrm j) as [c|]; [|exact HI].
    destruct (nth_error (sChan s) c) as [[|[q m] t]|]; try exact HI.
    set (s1 := setSChan _ s).
    assert (soft s s1) as S1.
    { split; [|repeat split]. intros x. cbn. destruct (nth_error _ x); auto. }
    assert (inv2 (crash s1)) as HC.
    { eapply same2_inv; [eapply soft_inv; eauto|]. constructor; cbn; auto.
      exists []. rewrite !app_nil_r. auto. }
    destruct (Nat.eqb n 0 && negb (Nat.eqb q p)); [exact HC|].
    destruct (negb (mPart m =? Z.of_nat n)); [exact HC|].
    destruct (Nat.ltb 0 n && negb (mCall m =? mCall (jReq j))); [exact HC|].
    assert (forall b e, inv2 (setJ p (setJPh (JRet b e))
              (log (EClean p) (log (EPart p m (isEnd (mTyp m))) s1)))) as HR.
    { intros b e. eapply (soft_then s s1 _ p (setJPh (JRet b e)) j [EPart p m (isEnd (mTyp m)); EClean p]);
        eauto; try st2.
      - cbn. rewrite <- app_assoc. reflexivity.
      - repeat constructor; apply Nat.eqb_refl.
      - intros HK. unfold skel in *. rewrite Ep in HK. cbn [jPh setJPh jReq].
        destruct HK as (R & b1 & F & ->). split; [exact R|].
        exists (b1 ++ [EPart p m (isEnd (mTyp m))]). split.
        + apply Forall_app. split; [exact F|]. constructor; [|constructor]. split; [reflexivity|]. rewrite ET. auto.
        + unfold fin. rewrite ET. cbn. rewrite <- app_assoc. reflexivity. }
    destruct (negb (err =? 0)); [apply HR|]. destruct (isEnd (mTyp m)) eqn:EE; [apply HR|].
    eapply (soft_then s s1 _ p (setJPh (JRun (S n))) j [EPart p m false]); eauto; try st2.
    intros HK. unfold skel in *. rewrite Ep in HK. cbn [jPh setJPh jReq].
    destruct HK as (R & b1 & F & ->). split; [exact R|].
    exists (b1 ++ [EPart p m false]). split; [|reflexivity].
    apply Forall_app. split; [exact F|]. constructor; [|constructor]. split; [reflexivity|]. rewrite ET. auto.
  - (* OUpCanc *)
    unfold jobUpCanc. destruct (sCrash s); [exact HI|].
    destruct (nth_error (sJobs s) p) as [j|] eqn:Ej; [|exact HI].
    destruct (jPh j) eqn:Ep; try exact HI.
    destruct (mTyp (jReq j)) eqn:ET; try exact HI.
    destruct (jCanc j); [|exact HI].
    eapply (soft_then s s _ p (setJPh (JRet 0 errCtx)) j [EClean p]); eauto using soft_refl; try st2.
    intros HK. unfold skel in *. rewrite Ep in HK. cbn [jPh setJPh jReq].
    destruct HK as (R & b1 & F & ->). split; [exact R|].
    exists b1. split; [exact F|]. unfold fin. rewrite ET. reflexivity.
  - (* OBiRecv *)
    unfold jobBiRecv. destruct (sCrash s); [exact HI|].
    destruct (nth_error (sJobs s) p) as [j|] eqn:Ej; [|exact HI].
    destruct (jPh j) eqn:Ep; try exact HI.
    destruct (mTyp (jReq j)) eqn:ET; try exact HI.
    destruct (jStrm j) as [c|]; [|exact HI].
    destruct (nth_error (sChan s) c) as [[|[q m] t]|]; try exact HI.
    eapply (jstep_inv s _ p j j [EPart p m (isEnd (mTyp m))]); [exact HI| |].
    + constructor; cbn; auto; try st2.
      intros x NE. destruct (nth_error (sJobs s) x); auto.
    + intros HK. unfold skel in *. rewrite Ep in *. 
      destruct HK as (R & b1 & F & ->). split; [exact R|].
      exists (b1 ++ [EPart p m (isEnd (mTyp m))]). split; [|reflexivity].
      apply Forall_app. split; [exact F|]. constructor; [|constructor]. split; [reflexivity|]. rewrite ET. auto.
  - (* ODown *)
    unfold jobDown. destruct (sCrash s); [exact HI|].
    destruct (nth_error (sJobs s) p) as [j|] eqn:Ej; [|exact HI].
    cbv zeta. set (m := mkMsg _ _ _ _ _ _ _ _).
    assert ((mTyp (jReq j) = TReqDown \/ mTyp (jReq j) = TReqBi) ->
            (exists n, jPh j = JRun n) ->
            inv2 (setJ p (setJNext (jNext j + 1)) (sWrite m (EDown p m) s))) as HG.
    { intros HT [n Ep]. unfold sWrite. destruct (up s) eqn:EU.
      - eapply (jstep_inv s _ p j (setJNext (jNext j + 1) j) [EDown p m]); [exact HI|apply (jstep_upd s _ p (setJNext (jNext j + 1))); auto; try st2|].
        + cbn. intros x Hx. apply in_app1 in Hx. destruct Hx as [Hx|<-]; auto.
        + intros HK. unfold skel in *. cbn [jPh setJNext jReq]. rewrite Ep in *.
          destruct HK as (R & b1 & F & ->). split; [exact R|].
          exists (b1 ++ [EDown p m]). split; [|reflexivity].
          apply Forall_app. split; [exact F|]. constructor; [|constructor]. repeat split. exact HT.
      - eapply soft_inv; [exact HI|]. apply (soft_setJ s p). intros x. split; reflexivity. }
    destruct (jPh j) eqn:Ep; try exact HI. destruct (mTyp (jReq j)) eqn:ET; try exact HI;
    (apply HG; [auto|eauto]).
  - (* OEnd *)
    unfold jobEnd. destruct (sCrash s); [exact HI|].
    destruct (nth_error (sJobs s) p) as [j|] eqn:Ej; [|exact HI].
    assert ((exists n, jPh j = JRun n) -> mTyp (jReq j) <> TUpBegin ->
      inv2 (log (EEnd p body err) (setJ p (setJPh (JRet body err)) s))) as HG.
    { intros [n Ep] NU.
      eapply (soft_then s s _ p (setJPh (JRet body err)) j [EEnd p body err]); eauto using soft_refl; try st2.
      intros HK. unfold skel in *. rewrite Ep in HK. cbn [jPh setJPh jReq].
      destruct HK as (R & b1 & F & ->). split; [exact R|].
      exists b1. split; [exact F|]. unfold fin. destruct (mTyp (jReq j)); try congruence; reflexivity. }
    destruct (jPh j) eqn:Ep; try exact HI. destruct (mTyp (jReq j)) eqn:ET; try exact HI;
    (apply HG; [eauto|discriminate]).
  - (* OReply *)
    unfold jobReply. destruct (sCrash s); [exact HI|].
    destruct (nth_error (sJobs s) p) as [j|] eqn:Ej; [|exact HI].
    destruct (jPh j) eqn:Ep; try exact HI.
    fold (replyOf (jReq j) body err). unfold sWrite. destruct (up s) eqn:EU.
    + eapply (soft_then s s _ p (setJPh JReplied) j [EAnswer p (replyOf (jReq j) body err)]);
        eauto using soft_refl; try st2.
      * cbn. intros x Hx. apply in_app1 in Hx. destruct Hx as [Hx|<-]; auto.
      * intros HK. unfold skel in *. rewrite Ep in HK. cbn [jPh setJPh jReq].
        destruct HK as (R & b1 & F & ->). split; [exact R|].
        exists b1, body, err. split; [exact F|]. right. cbn. rewrite <- app_assoc. reflexivity.
    + eapply (soft_then s s _ p (setJPh JReplied) j []); eauto using soft_refl; try st2.
      * cbn. rewrite app_nil_r. reflexivity.
      * intros HK. unfold skel in *. rewrite Ep in HK. cbn [jPh setJPh jReq].
        rewrite app_nil_r. destruct HK as (R & b1 & F & ->). split; [exact R|].
        exists b1, body, err. split; [exact F|]. left. auto.
  - (* OClean *)
    unfold jobClean. destruct (sCrash s); [exact HI|].
    destruct (nth_error (sJobs s) p) as [j|] eqn:Ej; [|exact HI].
    destruct (jPh j) eqn:Ep; try exact HI.
    pose proof (soft_cancel (mCall (jReq j)) s) as SC.
    eapply (soft_then s _ _ p (setJPh JOver) j []); eauto; try st2.
    + cbn. rewrite app_nil_r. reflexivity.
    + cbn [up setJ setSJobs]. intros HK. unfold skel in *. rewrite Ep in HK. cbn [jPh setJPh jReq].
      rewrite app_nil_r. right. right. right. cbn.
      destruct SC as (_ & E2 & _). rewrite E2. exact HK.
  - (* ODeadline *)
    unfold jobDeadline. destruct (sCrash s); [exact HI|].
    destruct (nth_error (sJobs s) p) as [j|] eqn:Ej; [|exact HI].
    destruct (jPh j) eqn:Ep; try exact HI. destruct (mDl (jReq j)); [|exact HI].
    eapply soft_inv; [exact HI|]. apply (soft_setJ s p). intros x. split; reflexivity.
  - (* OPush *)
    unfold push. destruct (sCrash s); [exact HI|]. set (m := mkMsg _ _ _ _ _ _ _ _).
    unfold sWrite. destruct (up s); [|exact HI].
    destruct HI as [H1 H2 H3]. constructor; cbn; auto.
    + intros p. unfold tr, log. cbn. rewrite filter_app. cbn. rewrite app_nil_r. apply H2.
    + intros x Hx. apply in_app1 in Hx. destruct Hx as [Hx|<-].
      * apply H3 in Hx. destruct Hx as [Hx|(q & [Hx|Hx])].
        -- left. apply in_app_iff. auto.
        -- right. exists q. left. apply in_app_iff. auto.
        -- right. exists q. right. apply in_app_iff. auto.
      * left. apply in_app1. auto.
Qed.
