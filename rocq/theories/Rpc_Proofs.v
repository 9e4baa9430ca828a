(** * Proofs about calls and streams: invariants of the client and the wire *)

From Coq Require Import ZArith NArith List Bool Lia PeanoNat.
From Verif Require Import Rpc_Model.
Import ListNotations.
Local Open Scope Z_scope.

(** ** Lists and maps *)

Lemma nth_upd : forall {A} (l : list A) i f j,
  nth_error (upd i f l) j =
  if Nat.eqb i j then option_map f (nth_error l j) else nth_error l j.
Proof.
  induction l as [|x r IH]; intros [|i] f [|j]; cbn; try reflexivity.
  - destruct (Nat.eqb i j); reflexivity.
  - apply IH.
Qed.

Lemma length_upd : forall {A} (l : list A) i f, length (upd i f l) = length l.
Proof. induction l as [|x r IH]; intros [|i] f; cbn; auto. Qed.

Lemma nth_app1 : forall {A} (l : list A) x i y,
  nth_error (l ++ [x]) i = Some y <->
  (nth_error l i = Some y \/ (i = length l /\ x = y)).
Proof.
  intros A l x i y. destruct (Nat.lt_ge_cases i (length l)) as [H|H].
  - rewrite nth_error_app1 by exact H. split; [auto|intros [E|[E _]]; [exact E|lia]].
  - rewrite nth_error_app2 by exact H.
    assert (nth_error l i = None) as HN by (apply nth_error_None; exact H).
    rewrite HN. destruct (i - length l)%nat as [|d] eqn:E; cbn.
    + split; [intros K; injection K as ->; right; split; [lia|reflexivity]
             |intros [K|[_ ->]]; [discriminate|reflexivity]].
    + split; [destruct d; discriminate|intros [K|[K _]]; [discriminate|lia]].
Qed.

Lemma in_app1 : forall {A} (l : list A) x y, In y (l ++ [x]) <-> (In y l \/ x = y).
Proof. intros. rewrite in_app_iff. cbn. intuition. Qed.

Lemma map_upd_id : forall {A B} (g : A -> B) (f : A -> A) (l : list A) i,
  (forall x, g (f x) = g x) -> map g (upd i f l) = map g l.
Proof.
  intros A B g f l. induction l as [|x r IH]; intros [|i] H; cbn; auto.
  - now rewrite H.
  - now rewrite IH.
Qed.

Lemma mget_mdel_N : forall {V} (l : list (N * V)) k k',
  mget N.eqb k' (mdel N.eqb k l) = if N.eqb k k' then None else mget N.eqb k' l.
Proof.
  induction l as [|[a v] r IH]; intros k k'; cbn.
  - destruct (k =? k')%N; reflexivity.
  - change (filter _ r) with (mdel N.eqb k r).
    destruct (a =? k)%N eqn:E1; cbn [negb mget].
    + rewrite IH. apply N.eqb_eq in E1. subst a.
      destruct (k =? k')%N; reflexivity.
    + destruct (a =? k')%N eqn:E2.
      * apply N.eqb_eq in E2. subst a. rewrite N.eqb_sym, E1. reflexivity.
      * apply IH.
Qed.

Lemma mget_mset_N : forall {V} (l : list (N * V)) k v k',
  mget N.eqb k' (mset N.eqb k v l) = if N.eqb k k' then Some v else mget N.eqb k' l.
Proof.
  intros. unfold mset. cbn [mget]. destruct (k =? k')%N eqn:E; [reflexivity|].
  rewrite mget_mdel_N, E. reflexivity.
Qed.

Lemma mget_mdel_Z : forall {V} (l : list (Z * V)) k k',
  mget Z.eqb k' (mdel Z.eqb k l) = if k =? k' then None else mget Z.eqb k' l.
Proof.
  induction l as [|[a v] r IH]; intros k k'; cbn.
  - destruct (k =? k'); reflexivity.
  - change (filter _ r) with (mdel Z.eqb k r).
    destruct (a =? k) eqn:E1; cbn [negb mget].
    + rewrite IH. apply Z.eqb_eq in E1. subst a.
      destruct (k =? k'); reflexivity.
    + destruct (a =? k') eqn:E2.
      * apply Z.eqb_eq in E2. subst a. rewrite Z.eqb_sym, E1. reflexivity.
      * apply IH.
Qed.

Lemma mget_mset_Z : forall {V} (l : list (Z * V)) k v k',
  mget Z.eqb k' (mset Z.eqb k v l) = if k =? k' then Some v else mget Z.eqb k' l.
Proof.
  intros. unfold mset. cbn [mget]. destruct (k =? k') eqn:E; [reflexivity|].
  rewrite mget_mdel_Z, E. reflexivity.
Qed.

Global Arguments mset {K V} eqb k v l : simpl never.
Global Arguments mdel {K V} eqb k l : simpl never.

(** ** Running *)

Lemma run_app : forall cp os1 os2 s, run cp (os1 ++ os2) s = run cp os2 (run cp os1 s).
Proof. induction os1; cbn; auto. Qed.

Lemma run_ind : forall cp (P : st -> Prop),
  P init -> (forall o s, P s -> P (step cp o s)) -> forall os, P (run cp os init).
Proof.
  intros cp P H0 HS os. revert H0. generalize init.
  induction os as [|o r IH]; intros s H0; cbn; auto.
Qed.

(** destruct every match of the goal. *)
Ltac dm :=
  repeat match goal with
         | |- context [match ?x with _ => _ end] => destruct x eqn:?
         end.

(** ** Which operations leave the client alone *)

(** the client's calls, streams and counters, and all it wrote. *)
Definition cliEq (a b : st) : Prop :=
  cSeq a = cSeq b /\ cOnce a = cOnce b /\ cCalls a = cCalls b /\
  cStrm a = cStrm b /\ sent a = sent b.

Lemma cliEq_refl : forall s, cliEq s s.
Proof. intros s. repeat split. Qed.

Definition srvOp (o : op) : bool :=
  match o with
  | OListen | OUserRecv _ | ODisconnect | ORegister _ _
  | OSrvRead | OSrvPart | OStart _ | OErrClose _ | OUpPart _ _ _ | OUpCanc _
  | OBiRecv _ | ODown _ _ _ | OEnd _ _ _ | OReply _ | OClean _ | ODeadline _
  | OPush _ _ _ => true
  | _ => false
  end.

Lemma cli_srvOp : forall cp o s, srvOp o = true -> cliEq (step cp o s) s.
Proof.
  intros cp o s H. destruct o; try discriminate H; clear H; cbn [step];
  unfold listen, newChan, userRecv, srvRead, srvPart, jobStart, respondErr, jobErrClose,
    jobUpPart, jobUpCanc, jobBiRecv, jobDown, jobEnd, jobReply, jobClean, jobDeadline, push,
    cancelCall, regFlight, sWrite, crash, setJ; dm; repeat split.
Qed.

(** ** The client's invariant *)

Record inv1 (s : st) : Prop := mkInv1 {
  i_strm : forall i h, nth_error (cStrm s) i = Some h -> (0 < sSeq h <= cSeq s)%N;
  i_call : forall k c, nth_error (cCalls s) k = Some c ->
    (mSeq (kMsg c) <= cSeq s)%N /\ mTyp (kMsg c) = TRPC /\
    (kPh c = PHand -> mSeq (kMsg c) = 0%N /\ kDone c = DOpen);
  i_cc : forall k k' c c', nth_error (cCalls s) k = Some c -> nth_error (cCalls s) k' = Some c' ->
    mSeq (kMsg c) <> 0%N -> mSeq (kMsg c) = mSeq (kMsg c') -> k = k';
  i_ch : forall k i c h, nth_error (cCalls s) k = Some c -> nth_error (cStrm s) i = Some h ->
    mSeq (kMsg c) <> sSeq h;
  i_fcall : forall p m k, nth_error (sent s) p = Some (m, ByCall k) ->
    mSeq m <> 0%N /\ exists c, nth_error (cCalls s) k = Some c /\ kMsg c = m;
  i_fcanc : forall p m k, nth_error (sent s) p = Some (m, ByCancel k) -> mTyp m = TCancel;
  i_fone : forall p m, nth_error (sent s) p = Some (m, ByOneWay) -> mTyp m = TOneWay;
  i_fstrm : forall p m i, nth_error (sent s) p = Some (m, ByStrm i) ->
    exists h, nth_error (cStrm s) i = Some h /\ mSeq m = sSeq h /\ mCall m = sCall h;
  i_fclose : forall p m i, nth_error (sent s) p = Some (m, ByClose i) -> mTyp m = TCancel;
  i_once1 : forall p p' m m' k, nth_error (sent s) p = Some (m, ByCall k) ->
    nth_error (sent s) p' = Some (m', ByCall k) -> p = p';
  i_once : forall n k, mget N.eqb n (cOnce s) = Some k ->
    exists p m, nth_error (sent s) p = Some (m, ByCall k) /\ mSeq m = n }.

Lemma inv1_init : inv1 init.
Proof.
  constructor; cbn; intros; try discriminate;
  repeat match goal with
         | H : nth_error [] ?i = Some _ |- _ => destruct i; discriminate H
         end.
Qed.

Lemma inv1_eq : forall a b, cliEq a b -> inv1 b -> inv1 a.
Proof.
  intros a b (E1 & E2 & E3 & E4 & E5) [].
  constructor; rewrite ?E1, ?E2, ?E3, ?E4, ?E5; assumption.
Qed.

(** changing the phase and DoneCh of a call. *)
Definition callEq (c c' : callrec) : Prop := kMsg c = kMsg c' /\ kPh c <> PHand.

Lemma inv1_calls : forall s s' k f,
  inv1 s -> cSeq s' = cSeq s -> (forall n j, mget N.eqb n (cOnce s') = Some j -> mget N.eqb n (cOnce s) = Some j) ->
  cStrm s' = cStrm s -> sent s' = sent s ->
  cCalls s' = upd k f (cCalls s) ->
  (forall c, nth_error (cCalls s) k = Some c -> kMsg (f c) = kMsg c /\ kPh (f c) <> PHand) ->
  inv1 s'.
Proof.
  intros s s' k f [H1 H2 H3 H4 H5 H6 H7 H8 H9 HA HB] E1 E2 E3 E4 E5 HF.
  assert (forall j c, nth_error (cCalls s') j = Some c ->
            exists c0, nth_error (cCalls s) j = Some c0 /\ kMsg c = kMsg c0 /\
              (kPh c = PHand -> kPh c0 = PHand /\ kDone c = kDone c0)) as HC.
  { intros j c H. rewrite E5, nth_upd in H. destruct (Nat.eqb_spec k j) as [->|NE].
    - destruct (nth_error (cCalls s) j) as [c0|] eqn:E; [|discriminate].
      cbn in H. injection H as <-. destruct (HF c0 eq_refl) as [K1 K2].
      exists c0. split; [reflexivity|split; [exact K1|intros K; contradiction]].
    - exists c. split; [exact H|split; [reflexivity|auto]]. }
  assert (forall j c, nth_error (cCalls s) j = Some c ->
            exists c', nth_error (cCalls s') j = Some c' /\ kMsg c' = kMsg c) as HD.
  { intros j c H. rewrite E5, nth_upd, H. destruct (Nat.eqb_spec k j) as [->|NE].
    - destruct (HF c H) as [K1 K2]. exists (f c). split; [reflexivity|exact K1].
    - exists c. split; reflexivity. }
  constructor; rewrite ?E1, ?E3, ?E4; try assumption.
  - intros j c H. destruct (HC j c H) as (c0 & K1 & K2 & K3). rewrite K2.
    destruct (H2 j c0 K1) as (L1 & L2 & L3). split; [exact L1|split; [exact L2|]].
    intros L. destruct (K3 L) as [L4 L5]. rewrite L5. auto.
  - intros j j' c c' Ha Hb. destruct (HC j c Ha) as (c0 & K1 & K2 & _).
    destruct (HC j' c' Hb) as (c0' & K1' & K2' & _). rewrite K2, K2'. eauto.
  - intros j i c h Ha Hb. destruct (HC j c Ha) as (c0 & K1 & K2 & _). rewrite K2. eauto.
  - intros p m j Ha. destruct (H5 p m j Ha) as (L & c & K1 & K2).
    destruct (HD j c K1) as (c' & K3 & K4). split; [exact L|]. exists c'. split; congruence.
  - intros n j Ha. apply E2 in Ha. eauto.
Qed.

Lemma inv1_ret : forall s k r, inv1 s -> inv1 (ret k r s).
Proof.
  intros s k r H. apply (inv1_calls s _ k (setPh (PRet r))); try reflexivity; auto.
  intros c _. split; [reflexivity|discriminate].
Qed.

(** one more message of the client. *)
Lemma inv1_write : forall ok m o s, inv1 s ->
  match o with
  | ByCall k => False
  | ByCancel _ | ByClose _ => mTyp m = TCancel
  | ByOneWay => mTyp m = TOneWay
  | ByStrm i => exists h, nth_error (cStrm s) i = Some h /\ mSeq m = sSeq h /\ mCall m = sCall h
  end -> inv1 (cWrite ok m o s).
Proof.
  intros ok m o s [H1 H2 H3 H4 H5 H6 H7 H8 H9 HA HB] HO.
  unfold cWrite. destruct (up s && ok); [|constructor; assumption].
  constructor; cbn; try assumption.
  - intros p x k H. apply nth_app1 in H. destruct H as [H|[_ H]]; [eauto|].
    injection H as -> ->. destruct HO.
  - intros p x k H. apply nth_app1 in H. destruct H as [H|[_ H]]; [eauto|].
    injection H as -> ->. exact HO.
  - intros p x H. apply nth_app1 in H. destruct H as [H|[_ H]]; [eauto|].
    injection H as -> ->. exact HO.
  - intros p x i H. apply nth_app1 in H. destruct H as [H|[_ H]]; [eauto|].
    injection H as -> ->. exact HO.
  - intros p x i H. apply nth_app1 in H. destruct H as [H|[_ H]]; [eauto|].
    injection H as -> ->. exact HO.
  - intros p p' x x' k H H'. apply nth_app1 in H, H'.
    destruct H as [H|[_ H]]; [|injection H as -> ->; destruct HO].
    destruct H' as [H'|[_ H']]; [|injection H' as -> ->; destruct HO].
    eauto.
  - intros n k H. destruct (HB n k H) as (p & x & K1 & K2). exists p, x.
    split; [|exact K2]. apply nth_app1. left. exact K1.
Qed.

(** raising the counter. *)
Lemma inv1_seq : forall s, inv1 s -> inv1 (setCSeq (nextSeq s) s).
Proof.
  intros s [H1 H2 H3 H4 H5 H6 H7 H8 H9 HA HB]. unfold nextSeq.
  constructor; cbn; try assumption.
  - intros i h H. specialize (H1 i h H). lia.
  - intros k c H. destruct (H2 k c H) as (K1 & K2 & K3). split; [lia|auto].
Qed.

Lemma nth_some_lt : forall {A} (l : list A) i x, nth_error l i = Some x -> (i < length l)%nat.
Proof. intros A l i x H. apply nth_error_Some. congruence. Qed.

(** a new stream with the next number. *)
Lemma inv1_newstrm : forall s k call svc r, inv1 s ->
  inv1 (setCSeq (nextSeq s) (setCStrm (cStrm s ++ [mkStrm k call svc (nextSeq s) 1 false r]) s)).
Proof.
  intros s k call svc r [H1 H2 H3 H4 H5 H6 H7 H8 H9 HA HB]. unfold nextSeq.
  constructor; cbn; try assumption.
  - intros i h H. apply nth_app1 in H. destruct H as [H|[_ <-]]; cbn; [specialize (H1 i h H)|]; lia.
  - intros j c H. destruct (H2 j c H) as (K1 & K2 & K3). split; [lia|auto].
  - intros j i c h Hc Hh. apply nth_app1 in Hh. destruct Hh as [Hh|[_ <-]]; cbn; [eauto|].
    destruct (H2 j c Hc) as (K1 & _). lia.
  - intros p m i H. destruct (H8 p m i H) as (h & K1 & K2). exists h. split; [|exact K2].
    apply nth_app1. left. exact K1.
Qed.

(** a stream's part number, done flag or channels change. *)
Lemma inv1_updstrm : forall s i f,
  (forall h, sSeq (f h) = sSeq h /\ sCall (f h) = sCall h) ->
  inv1 s -> inv1 (setCStrm (upd i f (cStrm s)) s).
Proof.
  intros s i f HF [H1 H2 H3 H4 H5 H6 H7 H8 H9 HA HB].
  assert (forall j h, nth_error (upd i f (cStrm s)) j = Some h ->
            exists h0, nth_error (cStrm s) j = Some h0 /\ sSeq h = sSeq h0) as HC.
  { intros j h H. rewrite nth_upd in H. destruct (Nat.eqb_spec i j) as [->|].
    - destruct (nth_error (cStrm s) j) as [h0|]; [|discriminate]. injection H as <-.
      exists h0. split; [reflexivity|apply HF].
    - exists h. auto. }
  constructor; cbn; try assumption.
  - intros j h H. destruct (HC j h H) as (h0 & K1 & K2). rewrite K2. eauto.
  - intros k j c h Hc Hh. destruct (HC j h Hh) as (h0 & K1 & K2). rewrite K2. eauto.
  - intros p m j H. destruct (H8 p m j H) as (h & K1 & K2 & K3). rewrite nth_upd, K1.
    destruct (Nat.eqb i j); cbn.
    + exists (f h). destruct (HF h) as [L1 L2]. split; [reflexivity|split; congruence].
    + exists h. auto.
Qed.

Lemma tell_cli : forall cp cs m s, cliEq (tell cp cs m s) s.
Proof.
  induction cs as [|c r IH]; intros m s; cbn.
  - apply cliEq_refl.
  - destruct (room cp c s).
    + destruct (IH m (put c m s)) as (E1 & E2 & E3 & E4 & E5). unfold put in *. repeat split; cbn in *; assumption.
    + apply IH.
Qed.

Lemma inv1_step : forall cp o s, inv1 s -> inv1 (step cp o s).
Proof.
  intros cp o s H. destruct (srvOp o) eqn:ES.
  { apply (inv1_eq _ s); [apply cli_srvOp; exact ES|exact H]. }
  destruct o; try discriminate ES; clear ES; cbn [step].
  - (* OCall *)
    destruct H as [H1 H2 H3 H4 H5 H6 H7 H8 H9 HA HB].
    unfold callBegin. constructor; cbn; try assumption.
    + intros k c H. apply nth_app1 in H. destruct H as [H|[_ <-]]; [eauto|].
      cbn. split; [lia|auto].
    + intros k k' c c' H H' NZ E. apply nth_app1 in H, H'.
      destruct H as [H|[_ <-]]; [|cbn in NZ; congruence].
      destruct H' as [H'|[_ <-]]; [eauto|]. cbn in E. congruence.
    + intros k i c h H Hh. apply nth_app1 in H. destruct H as [H|[_ <-]]; [eauto|].
      cbn. specialize (H1 i h Hh). lia.
    + intros p m k H. destruct (H5 p m k H) as (L & c & K1 & K2). split; [exact L|].
      exists c. split; [|exact K2]. apply nth_app1. left. exact K1.
  - (* OSendCall *)
    unfold sendCall. destruct (nth_error (cCalls s) k) as [c|] eqn:EC; [|exact H].
    destruct (kPh c) eqn:EP; try exact H.
    destruct H as [H1 H2 H3 H4 H5 H6 H7 H8 H9 HA HB].
    destruct (H2 k c EC) as (Q1 & Q2 & Q3). specialize (Q3 EP). destruct Q3 as [Q3 Q4].
    assert (forall f j x, (forall y, f y = f c) -> nth_error (upd k f (cCalls s)) j = Some x ->
              (j = k /\ x = f c) \/ (j <> k /\ nth_error (cCalls s) j = Some x)) as HU.
    { intros f j x HF K. rewrite nth_upd in K. destruct (Nat.eqb_spec k j) as [<-|NE].
      - rewrite EC in K. injection K as <-. left. auto.
      - right. auto. }
    assert (forall p m, nth_error (sent s) p = Some (m, ByCall k) -> False) as NOS.
    { intros p m K. destruct (H5 p m k K) as (NZ & c1 & K1 & K2).
      rewrite EC in K1. injection K1 as <-. congruence. }
    destruct (up s && ok) eqn:EU.
    + unfold cWrite; cbn; rewrite EU. constructor; cbn; try assumption.
      * intros i h K. unfold nextSeq. specialize (H1 i h K). lia.
      * intros j x K. apply HU in K; [|reflexivity]. destruct K as [[-> ->]|[NE K]]; cbn.
        -- split; [unfold nextSeq; lia|split; [exact Q2|discriminate]].
        -- destruct (H2 j x K) as (L1 & L2 & L3). split; [unfold nextSeq; lia|auto].
      * intros j j' x x' K K' NZ E. apply HU in K, K'; try reflexivity.
        destruct K as [[-> ->]|[NE K]]; destruct K' as [[-> ->]|[NE' K']]; cbn in *; auto.
        -- destruct (H2 j' x' K') as (L1 & _). unfold nextSeq in E. lia.
        -- destruct (H2 j x K) as (L1 & _). unfold nextSeq in E. lia.
        -- eauto.
      * intros j i x h K Kh. apply HU in K; [|reflexivity]. destruct K as [[-> ->]|[NE K]]; cbn; [|eauto].
        specialize (H1 i h Kh). unfold nextSeq. lia.
      * intros p m j K. apply nth_app1 in K. destruct K as [K|[_ K]].
        -- destruct (H5 p m j K) as (NZ & c1 & K1 & K2). split; [exact NZ|].
           exists c1. rewrite nth_upd. destruct (Nat.eqb_spec k j) as [<-|NE].
           ++ destruct (NOS _ _ K).
           ++ auto.
        -- injection K as <- <-. cbn. split; [unfold nextSeq; lia|].
           exists (mkCall (setSeqM (nextSeq s) (kMsg c)) PWait (kDone c)).
           rewrite nth_upd, Nat.eqb_refl, EC. auto.
      * intros p m j K. apply nth_app1 in K. destruct K as [K|[_ K]]; [eauto|discriminate].
      * intros p m K. apply nth_app1 in K. destruct K as [K|[_ K]]; [eauto|discriminate].
      * intros p m j K. apply nth_app1 in K. destruct K as [K|[_ K]]; [eauto|discriminate].
      * intros p m j K. apply nth_app1 in K. destruct K as [K|[_ K]]; [eauto|discriminate].
      * intros p p' m m' j K K'. apply nth_app1 in K, K'.
        destruct K as [K|[E K]]; destruct K' as [K'|[E' K']].
        -- eauto.
        -- injection K' as <- <-. destruct (NOS _ _ K).
        -- injection K as <- <-. destruct (NOS _ _ K').
        -- congruence.
      * intros n j K. rewrite mget_mset_N in K. destruct (nextSeq s =? n)%N eqn:EN.
        -- injection K as <-. apply N.eqb_eq in EN. subst n.
           exists (length (sent s)), (setSeqM (nextSeq s) (kMsg c)). split; [|reflexivity].
           apply nth_app1. right. auto.
        -- destruct (HB n j K) as (p & m & K1 & K2). exists p, m. split; [|exact K2].
           apply nth_app1. left. exact K1.
    + constructor; cbn; try assumption.
      * intros i h K. unfold nextSeq. specialize (H1 i h K). lia.
      * intros j x K. apply HU in K; [|reflexivity]. destruct K as [[-> ->]|[NE K]]; cbn.
        -- split; [unfold nextSeq; lia|split; [exact Q2|discriminate]].
        -- destruct (H2 j x K) as (L1 & L2 & L3). split; [unfold nextSeq; lia|auto].
      * intros j j' x x' K K' NZ E. apply HU in K, K'; try reflexivity.
        destruct K as [[-> ->]|[NE K]]; destruct K' as [[-> ->]|[NE' K']]; cbn in *; auto.
        -- destruct (H2 j' x' K') as (L1 & _). unfold nextSeq in E. lia.
        -- destruct (H2 j x K) as (L1 & _). unfold nextSeq in E. lia.
        -- eauto.
      * intros j i x h K Kh. apply HU in K; [|reflexivity]. destruct K as [[-> ->]|[NE K]]; cbn; [|eauto].
        specialize (H1 i h Kh). unfold nextSeq. lia.
      * intros p m j K. destruct (H5 p m j K) as (NZ & c1 & K1 & K2). split; [exact NZ|].
        exists c1. rewrite nth_upd. destruct (Nat.eqb_spec k j) as [<-|NE].
        -- destruct (NOS _ _ K).
        -- auto.
  - (* OReturn *)
    unfold callReturn. dm; try exact H; apply inv1_ret; exact H.
  - unfold callTimeout. dm; try exact H; apply inv1_ret; exact H.
  - unfold callCancel. dm; try exact H; try (apply inv1_ret; exact H).
    apply (inv1_calls s _ k (setPh PCancel)); try reflexivity; auto.
    intros x _. split; [reflexivity|discriminate].
  - unfold sendCancel. dm; try exact H. apply inv1_ret, inv1_write; [exact H|reflexivity].
  - unfold callShut. dm; try exact H; apply inv1_ret; exact H.
  - unfold oneWay. destruct (seq =? 0)%N; apply inv1_write; try reflexivity; [apply inv1_seq|]; exact H.
  - destruct k; [exact H| |]; unfold newStream, regChans, newChan;
    match goal with |- inv1 (setCSeq (nextSeq ?x) _) => set (s1 := x) end;
    apply (inv1_newstrm s1); subst s1; apply (inv1_eq _ s); try exact H; repeat split.
  - unfold beginStream. destruct (nth_error (cStrm s) i) as [h|] eqn:E; [|exact H].
    destruct (sKind h); try exact H; apply inv1_write; try exact H; exists h; auto.
  - unfold upBegin. cbn. destruct (up s && ok); [|apply inv1_seq; exact H].
    apply inv1_write.
    + apply (inv1_newstrm s KUp call svc None) in H. exact H.
    + cbn. exists (mkStrm KUp call svc (nextSeq s) 1 false None). split; [|auto].
      apply nth_app1. right. auto.
  - unfold upReg. destruct (nth_error (cStrm s) i) as [h|] eqn:E; [|exact H].
    destruct (sKind h); try exact H. destruct (sReg h); try exact H.
    unfold regChans, newChan.
    match goal with |- inv1 (setCStrm (upd i ?f (cStrm ?x)) ?x) =>
      apply (inv1_updstrm x i f); [intros; split; reflexivity|] end.
    apply (inv1_eq _ s); try exact H; repeat split.
  - unfold upMore. destruct (nth_error (cStrm s) i) as [h|] eqn:E; [|exact H].
    destruct (sKind h); try exact H; destruct (sDone h); try exact H;
    (apply inv1_write;
     [apply inv1_updstrm; [intros; split; reflexivity|exact H]
     |exists (setNext (sNext h + 1) (setSDone last h)); cbn;
      rewrite nth_upd, Nat.eqb_refl, E; auto]).
  - unfold closeStream. destruct (nth_error (cStrm s) i) as [h|] eqn:E; [|exact H].
    destruct (sKind h); try exact H; (apply inv1_write; [exact H|reflexivity]).
  - (* OCliRead *)
    unfold cliRead. destruct (up s); [|exact H].
    destruct (wireS s) as [|m r]; [exact H|].
    destruct (wants m s).
    + destruct (room cp n s); [|exact H]. apply (inv1_eq _ s); [|exact H]. repeat split.
    + cbn. destruct (mget N.eqb (mSeq m) (cOnce s)) as [k|] eqn:E.
      * apply (inv1_calls s _ k (setDone (DWith m))); try reflexivity; auto.
        -- cbn. intros n j K. rewrite mget_mdel_N in K. destruct (mSeq m =? n)%N; [discriminate|exact K].
        -- intros c K. split; [reflexivity|]. intros EP. cbn in EP.
           destruct (i_once s H _ _ E) as (p & x & K1 & K2).
           destruct (i_fcall s H _ _ _ K1) as (NZ & c1 & K3 & K4).
           rewrite K in K3. injection K3 as <-.
           destruct (i_call s H _ _ K) as (_ & _ & K5). destruct (K5 EP) as [K6 _]. congruence.
      * apply (inv1_eq _ s); [|exact H].
        destruct (tell_cli cp (cListen s) m (setWireS r s)) as (E1 & E2 & E3 & E4 & E5).
        repeat split; assumption.
Qed.
