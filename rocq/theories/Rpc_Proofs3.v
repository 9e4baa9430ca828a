(** * Proofs about calls and streams: replies *)

From Coq Require Import ZArith NArith List Bool Lia PeanoNat.
From Verif Require Import Rpc_Model Rpc_Proofs Rpc_Proofs2.
Import ListNotations.
Local Open Scope Z_scope.

(** ** What the client sees of one call *)

Definition aboutC (k : nat) (e : event) : bool :=
  match e with
  | ESubmit q _ | ERet q _ => Nat.eqb q k
  | _ => false
  end.

Definition trC (k : nat) (s : st) : list event := filter (aboutC k) (hist s).

Definition written (m : msg) (s : st) : Prop :=
  In (EPush m) (hist s) \/ exists p, In (EAnswer p m) (hist s) \/ In (EDown p m) (hist s).

(** r is a message of the server with the Seqno of call k's request. *)
Definition src (k : nat) (r : msg) (s : st) : Prop :=
  exists p m, nth_error (sent s) p = Some (m, ByCall k) /\ mSeq r = mSeq m /\ written r s.

Record inv3 (s : st) : Prop := mkInv3 {
  r_tr : forall k, match nth_error (cCalls s) k with
                   | Some c => trC k s = ESubmit k (setSeqM 0 (kMsg c)) ::
                                         match kPh c with PRet r => [ERet k r] | _ => [] end
                   | None => trC k s = []
                   end;
  r_done : forall k c r, nth_error (cCalls s) k = Some c -> kDone c = DWith r -> src k r s;
  r_ret : forall k c r, nth_error (cCalls s) k = Some c -> kPh c = PRet (RReply r) -> src k r s;
  r_open : forall k c, nth_error (cCalls s) k = Some c -> kPh c = PWait \/ kPh c = PCancel ->
    kDone c = DOpen ->
    exists p m, nth_error (sent s) p = Some (m, ByCall k) /\ mget N.eqb (mSeq m) (cOnce s) = Some k;
  r_ans : forall p r m k c, In (EAnswer p r) (hist s) -> nth_error (sent s) p = Some (m, ByCall k) ->
    nth_error (cCalls s) k = Some c -> kPh c = PWait \/ kPh c = PCancel -> kDone c = DOpen ->
    mget Z.eqb (mCall m) (cRead s) = None -> mget Z.eqb (mCall m) (cErrs s) = None ->
    In r (wireS s) }.

Lemma inv3_init : inv3 init.
Proof.
  constructor; cbn; intros; try contradiction;
  repeat match goal with
         | H : nth_error [] ?i = Some _ |- _ => destruct i; discriminate H
         end.
  destruct k; reflexivity.
Qed.

Lemma trC_app : forall k s l s', hist s' = hist s ++ l -> trC k s' = trC k s ++ filter (aboutC k) l.
Proof. intros. unfold trC. rewrite H, filter_app. reflexivity. Qed.

Lemma written_mono : forall m s s' l, hist s' = hist s ++ l -> written m s -> written m s'.
Proof.
  intros m s s' l E H. unfold written in *. rewrite E.
  destruct H as [H|(p & [H|H])]; [left|right; exists p; left|right; exists p; right];
    apply in_app_iff; auto.
Qed.

(** ** Steps that do not touch the calls *)

Definition callOp (o : op) : bool :=
  match o with
  | OCall _ _ _ _ | OSendCall _ _ | OReturn _ | OTimeout _ | OCancel _ | OSendCancel _ _ | OShut _
  | OCliRead => true
  | _ => false
  end.

(** the calls and the waiters are the same, more is registered, written, logged;
    answers are only logged with their message put on the wire. *)
Record ext3 (s s' : st) : Prop := mkExt3 {
  e_calls : cCalls s' = cCalls s;
  e_once : cOnce s' = cOnce s;
  e_hist : exists l, hist s' = hist s ++ l /\ Forall (fun e => forall k, aboutC k e = false) l /\
             forall p r, In (EAnswer p r) l -> In r (wireS s');
  e_sent : exists l, sent s' = sent s ++ l /\ Forall (fun x => forall k, snd x <> ByCall k) l;
  e_wire : forall m, In m (wireS s) -> In m (wireS s');
  e_read : forall c, mget Z.eqb c (cRead s') = None -> mget Z.eqb c (cRead s) = None;
  e_errs : forall c, mget Z.eqb c (cErrs s') = None -> mget Z.eqb c (cErrs s) = None }.

Lemma nth_ext_call : forall (l l' : list (msg * origin)) p m k,
  Forall (fun x => forall k, snd x <> ByCall k) l' ->
  nth_error (l ++ l') p = Some (m, ByCall k) -> nth_error l p = Some (m, ByCall k).
Proof.
  intros l l' p m k HF H. destruct (Nat.lt_ge_cases p (length l)) as [L|L].
  - rewrite nth_error_app1 in H by exact L. exact H.
  - rewrite nth_error_app2 in H by exact L. apply nth_error_In in H.
    rewrite Forall_forall in HF. exfalso. apply (HF _ H k). reflexivity.
Qed.

Lemma nth_app_l : forall {A} (l l' : list A) p x, nth_error l p = Some x -> nth_error (l ++ l') p = Some x.
Proof.
  intros. rewrite nth_error_app1; [assumption|]. apply nth_error_Some. congruence.
Qed.

Lemma ext3_inv : forall s s', inv2 s -> inv3 s -> ext3 s s' -> inv3 s'.
Proof.
  intros s s' H2 [H1 Hd Hr Ho Ha] [E1 E2 (l & E3 & E4 & E5) (l' & E6 & E7) E8 E9 EA].
  assert (forall k r, src k r s -> src k r s') as HS.
  { intros k r (p & m & K1 & K2 & K3). exists p, m. split; [|split; [exact K2|]].
    - rewrite E6. apply nth_app_l. exact K1.
    - eapply written_mono; eassumption. }
  constructor; rewrite ?E1, ?E2.
  - intros k. rewrite (trC_app k s l s' E3).
    rewrite (filter_none (aboutC k) l), app_nil_r; [apply H1|].
    eapply Forall_impl; [|exact E4]. intros e He. apply He.
  - intros. eauto.
  - intros. eauto.
  - intros k c K1 K2 K3. destruct (Ho k c K1 K2 K3) as (p & m & L1 & L2).
    exists p, m. split; [|exact L2]. rewrite E6. apply nth_app_l. exact L1.
  - intros p r m k c K1 K2 K3 K4 K5 K6 K7. rewrite E3 in K1. apply in_app_iff in K1.
    destruct K1 as [K1|K1]; [|eauto].
    apply E8. apply (Ha p r m k c); auto. rewrite E6 in K2.
    eapply nth_ext_call; eassumption.
Qed.

Lemma ext3_refl : forall s, ext3 s s.
Proof.
  intros s. constructor; auto.
  - exists []. rewrite app_nil_r. repeat split; auto. intros p r [].
  - exists []. rewrite app_nil_r. auto.
Qed.

Lemma ext3_trans : forall a b c, ext3 a b -> ext3 b c -> ext3 a c.
Proof.
  intros a b c [A1 A2 (l & A3 & A4 & A5) (l2 & A6 & A7) A8 A9 AA]
               [B1 B2 (k & B3 & B4 & B5) (k2 & B6 & B7) B8 B9 BA].
  constructor; try congruence; auto.
  - exists (l ++ k). rewrite B3, A3, app_assoc. repeat split.
    + apply Forall_app. auto.
    + intros p r H. apply in_app_iff in H. destruct H; eauto.
  - exists (l2 ++ k2). rewrite B6, A6, app_assoc. split; [reflexivity|]. apply Forall_app. auto.
Qed.

(** only fields none of this depends on. *)
Lemma ext3_irr : forall s s',
  cCalls s' = cCalls s -> cOnce s' = cOnce s -> hist s' = hist s -> sent s' = sent s ->
  wireS s' = wireS s -> cRead s' = cRead s -> cErrs s' = cErrs s -> ext3 s s'.
Proof.
  intros s s' E1 E2 E3 E4 E5 E6 E7. constructor; rewrite ?E5, ?E6, ?E7; auto.
  - exists []. rewrite app_nil_r. repeat split; auto. intros p r [].
  - exists []. rewrite app_nil_r. auto.
Qed.

Lemma ext3_log : forall e s, (forall k, aboutC k e = false) -> (forall p r, e <> EAnswer p r) ->
  ext3 s (log e s).
Proof.
  intros e s H1 H2. constructor; cbn; auto.
  - exists [e]. repeat split; auto. intros p r [K|[]]. exfalso. eapply H2. exact K.
  - exists []. rewrite app_nil_r. auto.
Qed.

Lemma ext3_cWrite : forall ok m o s, (forall k, o <> ByCall k) -> ext3 s (cWrite ok m o s).
Proof.
  intros ok m o s H. unfold cWrite. destruct (up s && ok); [|apply ext3_refl].
  constructor; cbn; auto.
  - exists []. rewrite app_nil_r. repeat split; auto. intros p r [].
  - exists [(m, o)]. auto.
Qed.

Lemma ext3_sWrite : forall m e s, (forall k, aboutC k e = false) ->
  (forall p r, e = EAnswer p r -> r = m) -> ext3 s (sWrite m e s).
Proof.
  intros m e s H H'. unfold sWrite. destruct (up s); [|apply ext3_refl].
  constructor; cbn; auto.
  - exists [e]. repeat split; auto. intros p r [K|[]]. apply H' in K. apply in_app1. auto.
  - exists []. rewrite app_nil_r. auto.
  - intros x K. apply in_app1. auto.
Qed.

Ltac irr3 := apply ext3_irr; reflexivity.

Lemma ext3_flight : forall p m c s, ext3 s (regFlight p m c s).
Proof. intros. unfold regFlight. dm; irr3. Qed.

Lemma ext3_cancel : forall c s, ext3 s (cancelCall c s).
Proof. intros. unfold cancelCall. dm; try irr3. Qed.

Lemma ext3_chans : forall call s a s', regChans call s = (a, s') -> ext3 s s'.
Proof.
  intros call s a s' H. unfold regChans, newChan in H. cbn in H. injection H as <- <-.
  constructor; cbn; auto.
  - exists []. rewrite app_nil_r. repeat split; auto. intros p r [].
  - exists []. rewrite app_nil_r. auto.
  - intros c K. rewrite mget_mset_Z in K. destruct (call =? c); [discriminate|exact K].
  - intros c K. rewrite mget_mset_Z in K. destruct (call =? c); [discriminate|exact K].
Qed.

Lemma ext3_setJ : forall p f s, ext3 s (setJ p f s).
Proof. intros. irr3. Qed.

Lemma ext3_step : forall cp o s, callOp o = false -> ext3 s (step cp o s).
Proof.
  intros cp o s H. destruct o; try discriminate H; clear H; cbn [step].
  - unfold oneWay. eapply ext3_trans; [|apply ext3_cWrite; discriminate].
    destruct (seq =? 0)%N; irr3.
  - destruct k; [apply ext3_refl| |]; unfold newStream; destruct (regChans call s) as [r s1] eqn:E;
    (eapply ext3_trans; [eapply ext3_chans; exact E|irr3]).
  - unfold beginStream. dm; try apply ext3_refl; apply ext3_cWrite; discriminate.
  - unfold upBegin. cbn. destruct (up s && ok); [|irr3].
    eapply ext3_trans; [|apply ext3_cWrite; discriminate]. irr3.
  - unfold upReg. destruct (nth_error (cStrm s) i) as [h|]; [|apply ext3_refl].
    destruct (sKind h); try apply ext3_refl. destruct (sReg h); try apply ext3_refl.
    destruct (regChans (sCall h) s) as [r s1] eqn:E.
    eapply ext3_trans; [eapply ext3_chans; exact E|irr3].
  - unfold upMore. dm; try apply ext3_refl;
    (eapply ext3_trans; [|apply ext3_cWrite; discriminate]; irr3).
  - unfold closeStream. dm; try apply ext3_refl; apply ext3_cWrite; discriminate.
  - unfold listen, newChan. irr3.
  - unfold userRecv. destruct (nth_error (cChan s) c) as [[|m q]|]; try apply ext3_refl.
    eapply ext3_trans; [|apply ext3_log; [reflexivity|discriminate]]. irr3.
  - irr3.
  - irr3.
  - unfold srvRead. dm; try apply ext3_refl; try irr3;
    (eapply ext3_trans; [|apply ext3_flight]; irr3).
  - unfold srvPart. dm; try apply ext3_refl; irr3.
  - unfold jobStart. destruct (sCrash s); [apply ext3_refl|].
    destruct (nth_error (sJobs s) p) as [j|]; [|apply ext3_refl].
    destruct (jPh j); try apply ext3_refl.
    assert (ext3 s (respondErr p (jReq j) s)) as HE.
    { unfold respondErr. cbv zeta. set (e := mkMsg _ _ _ _ _ _ _ _).
      eapply ext3_trans; [|apply ext3_setJ].
      apply ext3_sWrite; [reflexivity|]. intros q r K. injection K as _ <-. reflexivity. }
    assert (forall k, ext3 s (if isReg k (mSvc (jReq j)) s
            then log (ERun p (jReq j)) (setJ p (setJPh (JRun 0)) (regFlight p (jReq j) (Some p) s))
            else respondErr p (jReq j) s)) as HG.
    { intros k. destruct (isReg k (mSvc (jReq j)) s); [|exact HE].
      eapply ext3_trans; [|apply ext3_log; [reflexivity|discriminate]].
      eapply ext3_trans; [apply ext3_flight|irr3]. }
    destruct (mTyp (jReq j)); try apply HG; try irr3.
    + destruct (isReg R1 (mSvc (jReq j)) s); [|exact HE].
      eapply ext3_trans; [|apply ext3_log; [reflexivity|discriminate]]. irr3.
    + eapply ext3_trans; [apply ext3_cancel|irr3].
  - unfold jobErrClose. dm; try apply ext3_refl; irr3.
  - unfold jobUpPart. dm; try apply ext3_refl; try irr3;
    (eapply ext3_trans; [|apply ext3_setJ]).
    all: try (eapply ext3_trans; [|apply ext3_log; [reflexivity|discriminate]]).
    all: try (eapply ext3_trans; [|apply ext3_log; [reflexivity|discriminate]]).
    all: irr3.
  - unfold jobUpCanc. dm; try apply ext3_refl.
    eapply ext3_trans; [|apply ext3_setJ]. apply ext3_log; [reflexivity|discriminate].
  - unfold jobBiRecv. dm; try apply ext3_refl.
    eapply ext3_trans; [|apply ext3_log; [reflexivity|discriminate]]. irr3.
  - unfold jobDown. destruct (sCrash s); [apply ext3_refl|].
    destruct (nth_error (sJobs s) p) as [j|]; [|apply ext3_refl].
    cbv zeta. set (m := mkMsg _ _ _ _ _ _ _ _).
    assert (ext3 s (setJ p (setJNext (jNext j + 1)) (sWrite m (EDown p m) s))) as HG.
    { eapply ext3_trans; [|apply ext3_setJ].
      apply ext3_sWrite; [reflexivity|discriminate]. }
    destruct (jPh j); try apply ext3_refl. destruct (mTyp (jReq j)); try apply ext3_refl; exact HG.
  - unfold jobEnd. dm; try apply ext3_refl;
    (eapply ext3_trans; [|apply ext3_log; [reflexivity|discriminate]]; irr3).
  - unfold jobReply. destruct (sCrash s); [apply ext3_refl|].
    destruct (nth_error (sJobs s) p) as [j|]; [|apply ext3_refl].
    destruct (jPh j); try apply ext3_refl. cbv zeta. set (m := mkMsg _ _ _ _ _ _ _ _).
    eapply ext3_trans; [|apply ext3_setJ].
    apply ext3_sWrite; [reflexivity|]. intros q r K. injection K as _ <-. reflexivity.
  - unfold jobClean. dm; try apply ext3_refl.
    eapply ext3_trans; [apply ext3_cancel|irr3].
  - unfold jobDeadline. dm; try apply ext3_refl; irr3.
  - unfold push. destruct (sCrash s); [apply ext3_refl|].
    apply ext3_sWrite; [reflexivity|discriminate].
Qed.

(** ** Steps of the calls *)

(** call k changes its phase, without a new reply. *)
Lemma inv3_phase : forall s s' k c ph evs l,
  inv2 s -> inv3 s ->
  nth_error (cCalls s) k = Some c ->
  (forall r, kPh c <> PRet r) ->
  cCalls s' = upd k (setPh ph) (cCalls s) ->
  cOnce s' = cOnce s -> hist s' = hist s ++ evs ->
  sent s' = sent s ++ l -> Forall (fun x => forall k, snd x <> ByCall k) l ->
  wireS s' = wireS s -> cRead s' = cRead s -> cErrs s' = cErrs s ->
  (evs = [] /\ ph = PCancel /\ kPh c = PWait \/
   exists r, evs = [ERet k r] /\ ph = PRet r /\
     (forall m, r = RReply m -> kDone c = DWith m)) ->
  inv3 s'.
Proof.
  intros s s' k c ph evs l H2 [H1 Hd Hr Ho Ha] Hk NR E1 E2 E3 E4 E5 E6 E7 E8 HC.
  assert (forall j r, src j r s -> src j r s') as HS.
  { intros j r (p & m & K1 & K2 & K3). exists p, m. split; [|split; [exact K2|]].
    - rewrite E4. apply nth_app_l. exact K1.
    - eapply written_mono; eassumption. }
  assert (forall j x, nth_error (cCalls s') j = Some x ->
    (j = k /\ x = setPh ph c) \/ (j <> k /\ nth_error (cCalls s) j = Some x)) as HU.
  { intros j x K. rewrite E1, nth_upd in K. destruct (Nat.eqb_spec k j) as [<-|NE]; [|auto].
    rewrite Hk in K. injection K as <-. auto. }
  constructor.
  - intros j. rewrite E1, nth_upd, (trC_app j s evs s' E3). specialize (H1 j).
    destruct (Nat.eqb_spec k j) as [<-|NE].
    + rewrite Hk in *. cbn [option_map setPh kMsg kPh]. rewrite H1.
      destruct (kPh c) eqn:EP; try (exfalso; exact (NR _ eq_refl)); try (exfalso; exact (NR _ EP));
      destruct HC as [(-> & -> & K)|(r1 & -> & -> & K)]; cbn; rewrite ?Nat.eqb_refl; try reflexivity.
    + assert (filter (aboutC j) evs = []) as EF.
      { destruct HC as [(-> & _)|(r & -> & _)]; [reflexivity|]. cbn.
        destruct (Nat.eqb_spec k j); [contradiction|reflexivity]. }
      rewrite EF, app_nil_r. exact H1.
  - intros j x r K1 K2. apply HU in K1. destruct K1 as [[-> ->]|[NE K1]]; [|eauto].
    cbn in K2. eauto.
  - intros j x r K1 K2. apply HU in K1. destruct K1 as [[-> ->]|[NE K1]]; [|eauto].
    cbn in K2. destruct HC as [(_ & -> & _)|(r' & _ & -> & K)]; [discriminate|].
    injection K2 as ->. apply HS. apply (Hd k c r Hk). apply K. reflexivity.
  - intros j x K1 K2 K3. rewrite E2. apply HU in K1. destruct K1 as [[-> ->]|[NE K1]].
    + cbn in *. destruct HC as [(_ & -> & K)|(r' & _ & -> & K)]; [|destruct K2; discriminate].
      destruct (Ho k c Hk (or_introl K) K3) as (p & m & L1 & L2). exists p, m. split; [|exact L2].
      rewrite E4. apply nth_app_l. exact L1.
    + destruct (Ho j x K1 K2 K3) as (p & m & L1 & L2). exists p, m. split; [|exact L2].
      rewrite E4. apply nth_app_l. exact L1.
  - intros p r m j x K1 K2 K3 K4 K5 K6 K7. rewrite E6. rewrite E7, E8 in *.
    rewrite E3 in K1. apply in_app_iff in K1.
    destruct K1 as [K1|K1].
    2:{ destruct HC as [(-> & _)|(r' & -> & _)]; [destruct K1|]. destruct K1 as [K1|[]]. discriminate. }
    rewrite E4 in K2. apply nth_ext_call in K2; [|exact E5].
    apply HU in K3. destruct K3 as [[-> ->]|[NE K3]]; [|eauto].
    cbn in *. destruct HC as [(_ & -> & K)|(r' & _ & -> & K)]; [|destruct K4; discriminate].
    eauto.
Qed.

Lemma inv3_ret : forall s k c r, inv2 s -> inv3 s ->
  nth_error (cCalls s) k = Some c -> (forall r, kPh c <> PRet r) ->
  (forall m, r = RReply m -> kDone c = DWith m) -> inv3 (ret k r s).
Proof.
  intros s k c r H2 H3 Hk NR HC.
  eapply (inv3_phase s _ k c (PRet r) [ERet k r] []); eauto; cbn; try reflexivity.
  rewrite app_nil_r. reflexivity.
Qed.

Lemma answered_seq : forall s p r m k, inv2 s -> In (EAnswer p r) (hist s) ->
  nth_error (sent s) p = Some (m, ByCall k) -> mSeq r = mSeq m /\ mCall r = mCall m.
Proof.
  intros s p r m k H HI HS. pose proof (v_tr s H p) as HT.
  assert (In (EAnswer p r) (tr p s)) as HI'.
  { unfold tr. apply filter_In. split; [exact HI|apply Nat.eqb_refl]. }
  destruct (nth_error (sJobs s) p) as [j|] eqn:Ej.
  2:{ rewrite HT in HI'. destruct HI'. }
  assert (jReq j = m) as <-.
  { pose proof (v_fifo s H) as HF.
    assert (nth_error (map fst (sent s)) p = Some m) as K.
    { rewrite nth_error_map, HS. reflexivity. }
    rewrite HF, nth_error_app1 in K.
    - rewrite nth_error_map, Ej in K. injection K as <-. reflexivity.
    - rewrite map_length. apply nth_error_Some. congruence. }
  assert (forall b, Forall (bodyEv p (jReq j)) b -> ~ In (EAnswer p r) b) as HB.
  { intros b HF K. rewrite Forall_forall in HF. apply HF in K. exact K. }
  assert (skelErr (up s) p (jReq j) (tr p s) -> mSeq r = mSeq (jReq j) /\ mCall r = mCall (jReq j)) as HE.
  { intros (_ & [[_ K]|K]); rewrite K in HI'; [destruct HI'|].
    destruct HI' as [K1|[]]. injection K1 as <-. split; reflexivity. }
  assert (skelAns (up s) p (jReq j) (tr p s) -> mSeq r = mSeq (jReq j) /\ mCall r = mCall (jReq j)) as HA.
  { intros (_ & b & b0 & e0 & HF & [[_ K]|K]); rewrite K in HI';
    destruct HI' as [K1|K1]; try discriminate; apply in_app_iff in K1;
    destruct K1 as [K1|K1]; try (exfalso; eapply HB; eassumption); cbn in K1;
    destruct K1 as [K1|K1].
    - unfold fin in K1. destruct (mTyp (jReq j)); discriminate.
    - destruct K1.
    - unfold fin in K1. destruct (mTyp (jReq j)); discriminate.
    - destruct K1 as [K1|[]]. injection K1 as <-. split; reflexivity. }
  unfold skel in HT. destruct (jPh j).
  - destruct HT as [HT _]. rewrite HT in HI'. destruct HI'.
  - rewrite HT in HI'. destruct HI'.
  - destruct HT as (_ & b & HF & K). rewrite K in HI'. destruct HI' as [K1|K1]; [discriminate|].
    exfalso. eapply HB; eassumption.
  - destruct HT as (_ & b & HF & K). rewrite K in HI'. destruct HI' as [K1|K1]; [discriminate|].
    apply in_app_iff in K1. destruct K1 as [K1|[K1|[]]]; [exfalso; eapply HB; eassumption|].
    unfold fin in K1. destruct (mTyp (jReq j)); discriminate.
  - auto.
  - auto.
  - destruct HT as [[_ K]|[[_ K]|[K|K]]]; auto; rewrite K in HI'; [destruct HI'|].
    destruct HI' as [K1|[]]; discriminate.
Qed.

Lemma inv3_step : forall cp o s, inv1 s -> inv2 s -> inv3 s -> inv3 (step cp o s).
Proof.
  intros cp o s H1 H2 H3. destruct (callOp o) eqn:EO.
  2:{ eapply ext3_inv; eauto. apply ext3_step. exact EO. }
  destruct o; try discriminate EO; clear EO; cbn [step].
  - (* OCall *)
    destruct H3 as [Ht Hd Hr Ho Ha].
    unfold callBegin. set (m := mkMsg TRPC 0 call svc 0 body 0 dl).
    assert (forall j x, nth_error (cCalls s ++ [mkCall m PHand DOpen]) j = Some x ->
       (j = length (cCalls s) /\ x = mkCall m PHand DOpen) \/ nth_error (cCalls s) j = Some x) as HU.
    { intros j x K. apply nth_app1 in K. destruct K as [K|[-> <-]]; auto. }
    set (s' := log _ _).
    assert (hist s' = hist s ++ [ESubmit (length (cCalls s)) m]) as EH by reflexivity.
    constructor.
    + intros j. rewrite (trC_app j s _ s' EH). specialize (Ht j). cbn [cCalls s' log setHist setCCalls].
      destruct (nth_error (cCalls s ++ [mkCall m PHand DOpen]) j) as [x|] eqn:E.
      * pose proof E as E'. apply HU in E. destruct E as [[-> ->]|E].
        -- assert (nth_error (cCalls s) (length (cCalls s)) = None) as EN by (apply nth_error_None; lia).
           rewrite EN in Ht. rewrite Ht. cbn. rewrite Nat.eqb_refl. reflexivity.
        -- rewrite E in Ht. rewrite Ht. cbn.
           assert (Nat.eqb (length (cCalls s)) j = false) as ->.
           { apply Nat.eqb_neq. apply nth_some_lt in E. lia. }
           rewrite app_nil_r. reflexivity.
      * destruct (nth_error (cCalls s) j) eqn:E2.
        -- assert (nth_error (cCalls s ++ [mkCall m PHand DOpen]) j = Some c) as K by (apply nth_app1; auto).
           congruence.
        -- rewrite Ht. cbn. apply nth_error_None in E. rewrite app_length in E. cbn in E.
           assert (Nat.eqb (length (cCalls s)) j = false) as -> by (apply Nat.eqb_neq; lia). reflexivity.
    + intros j x r K1 K2. apply HU in K1. destruct K1 as [[-> ->]|K1]; [discriminate|].
      destruct (Hd j x r K1 K2) as (p & y & L1 & L2 & L3). exists p, y. repeat split; auto.
      eapply written_mono; [exact EH|exact L3].
    + intros j x r K1 K2. apply HU in K1. destruct K1 as [[-> ->]|K1]; [discriminate|].
      destruct (Hr j x r K1 K2) as (p & y & L1 & L2 & L3). exists p, y. repeat split; auto.
      eapply written_mono; [exact EH|exact L3].
    + intros j x K1 K2 K3. apply HU in K1. destruct K1 as [[-> ->]|K1]; [destruct K2; discriminate|].
      eauto.
    + intros p r y j x K1 K2 K3 K4 K5 K6 K7. rewrite EH in K1. apply in_app1 in K1.
      destruct K1 as [K1|K1]; [|discriminate].
      apply HU in K3. destruct K3 as [[-> ->]|K3]; [destruct K4; discriminate|]. eauto.
  - (* OSendCall *)
    unfold sendCall. destruct (nth_error (cCalls s) k) as [c|] eqn:EC; [|exact H3].
    destruct (kPh c) eqn:EP; try exact H3.
    destruct H3 as [Ht Hd Hr Ho Ha].
    destruct (i_call s H1 k c EC) as (Q1 & Q2 & Q3). destruct (Q3 EP) as [Q4 Q5].
    set (m := setSeqM (nextSeq s) (kMsg c)).
    assert (setSeqM 0 m = setSeqM 0 (kMsg c)) as EM by reflexivity.
    assert (forall f j x, (forall y, f y = f c) -> nth_error (upd k f (cCalls s)) j = Some x ->
              (j = k /\ x = f c) \/ (j <> k /\ nth_error (cCalls s) j = Some x)) as HU.
    { intros f j x HF K. rewrite nth_upd in K. destruct (Nat.eqb_spec k j) as [<-|NE].
      - rewrite EC in K. injection K as <-. left. auto.
      - right. auto. }
    assert (forall p y, nth_error (sent s) p = Some (y, ByCall k) -> False) as NOS.
    { intros p y K. destruct (i_fcall s H1 p y k K) as (NZ & c1 & K1 & K2).
      rewrite EC in K1. injection K1 as <-. congruence. }
    assert (forall p r, In (EAnswer p r) (hist s) -> (p < length (sent s))%nat) as HP.
    { intros p r K. pose proof (v_tr s H2 p) as HT.
      destruct (nth_error (sJobs s) p) as [j|] eqn:Ej.
      - apply nth_some_lt in Ej. pose proof (v_fifo s H2) as HF. apply (f_equal (@length msg)) in HF.
        rewrite app_length, !map_length in HF. lia.
      - assert (In (EAnswer p r) (tr p s)) as K2.
        { unfold tr. apply filter_In. split; [exact K|apply Nat.eqb_refl]. }
        rewrite HT in K2. destruct K2. }
    cbn zeta. destruct (up s && ok) eqn:EU.
    + unfold cWrite. cbn [up setCOnce setCCalls setCSeq]. rewrite EU.
      set (s' := setWireC _ _).
      assert (hist s' = hist s ++ []) as EH by (cbn; rewrite app_nil_r; reflexivity).
      assert (sent s' = sent s ++ [(m, ByCall k)]) as ES by reflexivity.
      assert (cCalls s' = upd k (fun _ => mkCall m PWait (kDone c)) (cCalls s)) as ECC by reflexivity.
      assert (cOnce s' = mset N.eqb (nextSeq s) k (cOnce s)) as EO by reflexivity.
      assert (wireS s' = wireS s) as EWS by reflexivity.
      assert (cRead s' = cRead s) as ER by reflexivity.
      assert (cErrs s' = cErrs s) as EE by reflexivity.
      clearbody s'.
      assert (forall j r, src j r s -> src j r s') as HS.
      { intros j r (p & y & K1 & K2 & K3). exists p, y. split; [|split; [exact K2|]].
        - rewrite ES. apply nth_app_l. exact K1.
        - eapply written_mono; eassumption. }
      constructor.
      * intros j. rewrite (trC_app j s _ s' EH). cbn [filter]. rewrite app_nil_r, ECC, nth_upd.
        specialize (Ht j). destruct (Nat.eqb_spec k j) as [<-|NE]; [|exact Ht].
        rewrite EC in *. cbn [option_map kMsg kPh]. rewrite EM, Ht, EP. reflexivity.
      * intros j x r K1 K2. rewrite ECC in K1. apply HU in K1; [|reflexivity].
        destruct K1 as [[-> ->]|[NE K1]]; [|eauto]. cbn in K2. congruence.
      * intros j x r K1 K2. rewrite ECC in K1. apply HU in K1; [|reflexivity].
        destruct K1 as [[-> ->]|[NE K1]]; [|eauto]. discriminate.
      * intros j x K1 K2 K3. rewrite ECC in K1. apply HU in K1; [|reflexivity].
        destruct K1 as [[-> ->]|[NE K1]].
        -- exists (length (sent s)), m. split.
           ++ rewrite ES. apply nth_app1. auto.
           ++ rewrite EO, mget_mset_N. cbn. rewrite N.eqb_refl. reflexivity.
        -- destruct (Ho j x K1 K2 K3) as (p & y & L1 & L2). exists p, y. split.
           ++ rewrite ES. apply nth_app_l. exact L1.
           ++ rewrite EO, mget_mset_N. destruct (N.eqb_spec (nextSeq s) (mSeq y)) as [E|_]; [|exact L2].
              destruct (i_fcall s H1 p y j L1) as (_ & cj & M1 & M2).
              destruct (i_call s H1 j cj M1) as (M3 & _). rewrite M2 in M3. unfold nextSeq in E. lia.
      * intros p r y j x K1 K2 K3 K4 K5 K6 K7. rewrite EWS. rewrite ER in K6. rewrite EE in K7.
        rewrite EH, app_nil_r in K1. pose proof (HP p r K1) as LP.
        rewrite ES, nth_error_app1 in K2 by exact LP.
        rewrite ECC in K3. apply HU in K3; [|reflexivity].
        destruct K3 as [[-> ->]|[NE K3]]; [|eauto]. exfalso. eapply NOS. exact K2.
    + set (s' := setCCalls _ _).
      assert (hist s' = hist s ++ []) as EH by (cbn; rewrite app_nil_r; reflexivity).
      constructor.
      * intros j. rewrite (trC_app j s _ s' EH). cbn [filter s' cCalls setCCalls setCSeq].
        rewrite app_nil_r, nth_upd.
        specialize (Ht j). destruct (Nat.eqb_spec k j) as [<-|NE]; [|exact Ht].
        rewrite EC in *. cbn [option_map kMsg kPh]. rewrite EM, Ht, EP. reflexivity.
      * intros j x r K1 K2. cbn in K1. apply HU in K1; [|reflexivity].
        destruct K1 as [[-> ->]|[NE K1]]; [discriminate|]. exact (Hd j x r K1 K2).
      * intros j x r K1 K2. cbn in K1. apply HU in K1; [|reflexivity].
        destruct K1 as [[-> ->]|[NE K1]]; [discriminate|]. exact (Hr j x r K1 K2).
      * intros j x K1 K2 K3. cbn in K1. apply HU in K1; [|reflexivity].
        destruct K1 as [[-> ->]|[NE K1]]; [discriminate|]. exact (Ho j x K1 K2 K3).
      * intros p r y j x K1 K2 K3 K4 K5 K6 K7. cbn in K3. apply HU in K3; [|reflexivity].
        destruct K3 as [[-> ->]|[NE K3]]; [discriminate|]. exact (Ha p r y j x K1 K2 K3 K4 K5 K6 K7).
  - unfold callReturn. destruct (nth_error (cCalls s) k) as [c|] eqn:EC; [|exact H3].
    destruct (kPh c) eqn:EP; try exact H3. destruct (kDone c) eqn:ED; [exact H3| |];
    (eapply inv3_ret; eauto; [congruence|]); intros y K; congruence.
  - unfold callTimeout. destruct (nth_error (cCalls s) k) as [c|] eqn:EC; [|exact H3].
    destruct (kPh c) eqn:EP; try exact H3; (eapply inv3_ret; eauto; [congruence|]); intros y K; congruence.
  - unfold callCancel. destruct (nth_error (cCalls s) k) as [c|] eqn:EC; [|exact H3].
    destruct (kPh c) eqn:EP; try exact H3.
    + (eapply inv3_ret; eauto; [congruence|]); intros y K; congruence.
    + eapply (inv3_phase s _ k c PCancel [] []); eauto; cbn; rewrite ?app_nil_r; try reflexivity.
      congruence.
  - unfold sendCancel. destruct (nth_error (cCalls s) k) as [c|] eqn:EC; [|exact H3].
    destruct (kPh c) eqn:EP; try exact H3.
    eapply (inv3_ret _ k c).
    + eapply same2_inv; [exact H2|]. apply same2_write.
    + eapply ext3_inv; eauto. apply ext3_cWrite. discriminate.
    + unfold cWrite. destruct (up s && ok); exact EC.
    + congruence.
    + discriminate.
  - unfold callShut. destruct (up s); [exact H3|].
    destruct (nth_error (cCalls s) k) as [c|] eqn:EC; [|exact H3].
    destruct (kPh c) eqn:EP; try exact H3; (eapply inv3_ret; eauto; [congruence|]); intros y K; congruence.
  - (* OCliRead *)
    unfold cliRead. destruct (up s) eqn:EU; [|exact H3].
    destruct (wireS s) as [|m r] eqn:EW; [exact H3|].
    destruct H3 as [Ht Hd Hr Ho Ha].
    assert (forall s', cCalls s' = cCalls s -> cOnce s' = cOnce s -> hist s' = hist s -> sent s' = sent s ->
      wireS s' = r -> cRead s' = cRead s -> cErrs s' = cErrs s ->
      (wants m s <> None \/ mget N.eqb (mSeq m) (cOnce s) = None) -> inv3 s') as HG.
    { intros s' E1 E2 E3 E4 E5 E6 E7 HW. constructor; unfold trC, src, written in *;
      rewrite ?E1, ?E2, ?E3, ?E4, ?E6, ?E7; auto.
      intros p x y k c K1 K2 K3 K4 K5 K6 K7. rewrite E5.
      pose proof (Ha p x y k c K1 K2 K3 K4 K5 K6 K7) as KK. rewrite EW in KK.
      destruct KK as [<-|KK]; [|exact KK]. exfalso.
      destruct (answered_seq s p m y k H2 K1 K2) as [L1 L2].
      destruct HW as [HW|HW].
      - apply HW. unfold wants. rewrite L2, K6, K7. destruct (mTyp m); reflexivity.
      - destruct (Ho k c K3 K4 K5) as (p' & y' & L3 & L4).
        assert (p = p') as <- by (eapply (i_once1 s H1); eassumption).
        rewrite K2 in L3. injection L3 as <-. rewrite L1 in HW. congruence. }
    destruct (wants m s) as [c|] eqn:EWa.
    + destruct (room cp c s); [|constructor; assumption].
      apply HG; try reflexivity. left. discriminate.
    + cbn. destruct (mget N.eqb (mSeq m) (cOnce s)) as [k|] eqn:EK.
      * set (s' := setCCalls _ _).
        assert (hist s' = hist s ++ []) as EH by (cbn; rewrite app_nil_r; reflexivity).
        assert (forall j x, nth_error (cCalls s') j = Some x ->
          (j = k /\ exists c, nth_error (cCalls s) j = Some c /\ x = setDone (DWith m) c) \/
          (j <> k /\ nth_error (cCalls s) j = Some x)) as HU.
        { intros j x K. cbn in K. rewrite nth_upd in K. destruct (Nat.eqb_spec k j) as [<-|NE]; [|auto].
          destruct (nth_error (cCalls s) k) as [c|]; [|discriminate]. injection K as <-. left. eauto. }
        constructor.
        -- intros j. rewrite (trC_app j s _ s' EH). cbn [filter]. rewrite app_nil_r.
           cbn [s' cCalls setCCalls setCOnce setWireS]. rewrite nth_upd. specialize (Ht j).
           destruct (Nat.eqb_spec k j) as [<-|NE]; [|exact Ht].
           destruct (nth_error (cCalls s) k); exact Ht.
        -- intros j x y K1 K2. apply HU in K1. destruct K1 as [(-> & c & K1 & ->)|[NE K1]]; [|exact (Hd j x y K1 K2)].
           cbn in K2. injection K2 as <-.
           destruct (i_once s H1 _ _ EK) as (p & z & L1 & L2).
           exists p, z. split; [exact L1|split; [auto|]].
           apply (v_wire s H2). rewrite EW. left. reflexivity.
        -- intros j x y K1 K2. apply HU in K1. destruct K1 as [(-> & c & K1 & ->)|[NE K1]];
           [exact (Hr k c y K1 K2)|exact (Hr j x y K1 K2)].
        -- intros j x K1 K2 K3. apply HU in K1. destruct K1 as [(-> & c & K1 & ->)|[NE K1]]; [discriminate|].
           destruct (Ho j x K1 K2 K3) as (p & z & L1 & L2). exists p, z. split; [exact L1|].
           cbn. rewrite mget_mdel_N. destruct (N.eqb_spec (mSeq m) (mSeq z)) as [E|_]; [|exact L2].
           rewrite <- E in L2. congruence.
        -- intros p x y j z K1 K2 K3 K4 K5 K6 K7.
           apply HU in K3. destruct K3 as [(-> & c & K3 & ->)|[NE K3]]; [discriminate|].
           cbn. pose proof (Ha p x y j z K1 K2 K3 K4 K5 K6 K7) as KK. rewrite EW in KK.
           destruct KK as [<-|KK]; [|exact KK]. exfalso.
           destruct (answered_seq s p m y j H2 K1 K2) as [L1 L2].
           destruct (Ho j z K3 K4 K5) as (p' & y' & L3 & L4).
           assert (p = p') as <- by (eapply (i_once1 s H1); eassumption).
           change (nth_error (sent s) p = Some (y, ByCall j)) in K2. rewrite K2 in L3. injection L3 as <-. rewrite <- L1 in L4. congruence.
      * destruct (tell_cli cp (cListen s) m (setWireS r s)) as (E1 & E2 & E3 & E4 & E5).
        destruct (tell_irr cp (cListen s) m (setWireS r s)) as (F1 & F2 & F3 & F4 & F5 & F6).
        assert (forall cs x, cRead (tell cp cs m x) = cRead x /\ cErrs (tell cp cs m x) = cErrs x) as ET.
        { induction cs as [|a t IH]; intros x; cbn; [auto|]. destruct (room cp a x).
          - destruct (IH (put a m x)) as [-> ->]. auto.
          - apply IH. }
        destruct (ET (cListen s) (setWireS r s)) as [G1 G2].
        apply HG; auto.
Qed.

(** ** All together *)

Record inv (s : st) : Prop := mkInv { inv_1 : inv1 s; inv_2 : inv2 s; inv_3 : inv3 s }.

Lemma inv_run : forall cp os, inv (run cp os init).
Proof.
  intros cp os. apply run_ind.
  - constructor; [apply inv1_init|apply inv2_init|apply inv3_init].
  - intros o s [H1 H2 H3]. constructor.
    + apply inv1_step; assumption.
    + apply inv2_step; assumption.
    + apply inv3_step; assumption.
Qed.
