(** * Proofs about calls and streams: what a client's stream receives *)

From Coq Require Import ZArith NArith List Bool Lia PeanoNat.
From Verif Require Import Rpc_Model Rpc_Proofs Rpc_Proofs2 Rpc_Proofs3 Rpc_Proofs4 Rpc_Proofs5 Rpc_Proofs6
  Rpc_Proofs7.
Import ListNotations.
Local Open Scope Z_scope.

(** all the server wrote, in order. *)
Definition wroteOf (e : event) : list msg :=
  match e with EAnswer _ m | EDown _ m | EPush m => [m] | _ => [] end.
Definition wrote (h : list event) : list msg := flat_map wroteOf h.

(** what the user received from channel a. *)
Definition gotOf (a : nat) (e : event) : list msg :=
  match e with EGot c m => if Nat.eqb c a then [m] else [] | _ => [] end.
Definition got (a : nat) (h : list event) : list msg := flat_map (gotOf a) h.

Definition isErrT (t : ctyp) : bool := match t with TError => true | _ => false end.
Definition forC (c : Z) (l : list msg) : list msg :=
  filter (fun m => (mCall m =? c) && negb (isErrT (mTyp m))) l.
Definition errC (c : Z) (l : list msg) : list msg :=
  filter (fun m => (mCall m =? c) && isErrT (mTyp m)) l.

Lemma wrote_app : forall a b, wrote (a ++ b) = wrote a ++ wrote b.
Proof. intros. apply flat_map_app. Qed.
Lemma got_app : forall c a b, got c (a ++ b) = got c a ++ got c b.
Proof. intros. apply flat_map_app. Qed.
Lemma forC_app : forall c a b, forC c (a ++ b) = forC c a ++ forC c b.
Proof. intros. apply filter_app. Qed.
Lemma errC_app : forall c a b, errC c (a ++ b) = errC c a ++ errC c b.
Proof. intros. apply filter_app. Qed.

(** the client's channels. *)
Definition chanEq (a b : st) : Prop :=
  cRead a = cRead b /\ cErrs a = cErrs b /\ cListen a = cListen b /\ cChan a = cChan b.

Definition chanOp (o : op) : bool :=
  match o with
  | ONewStream _ _ _ | OUpReg _ | OListen | OCliRead | OUserRecv _ => true
  | _ => false
  end.

Lemma chan_other : forall cp o s, chanOp o = false -> chanEq (step cp o s) s.
Proof.
  intros cp o s H. destruct o; try discriminate H; clear H; cbn [step];
  unfold callBegin, sendCall, callReturn, callTimeout, callCancel, sendCancel, callShut, oneWay,
    beginStream, upBegin, upMore, closeStream, ret, cWrite, srvRead, srvPart, jobStart, respondErr, jobErrClose,
    jobUpPart, jobUpCanc, jobBiRecv, jobDown, jobEnd, jobReply, jobClean, jobDeadline, push,
    cancelCall, regFlight, sWrite, crash, setJ, log; dm; repeat split.
Qed.

(** what is written is logged. *)
Lemma wire_other : forall cp o s, o <> OCliRead ->
  exists evs, hist (step cp o s) = hist s ++ evs /\ wireS (step cp o s) = wireS s ++ wrote evs /\
    (forall a, (forall c, o <> OUserRecv c) -> got a evs = []).
Proof.
  intros cp o s NE.
  assert (forall x, hist x = hist s -> wireS x = wireS s ->
    exists evs, hist x = hist s ++ evs /\ wireS x = wireS s ++ wrote evs /\
      (forall a, (forall c, o <> OUserRecv c) -> got a evs = [])) as H0.
  { intros x E1 E2. exists []. cbn. rewrite !app_nil_r. auto. }
  assert (forall x e, hist x = hist s ++ [e] -> wireS x = wireS s ++ wroteOf e ->
    (forall a, gotOf a e = []) ->
    exists evs, hist x = hist s ++ evs /\ wireS x = wireS s ++ wrote evs /\
      (forall a, (forall c, o <> OUserRecv c) -> got a evs = [])) as H1.
  { intros x e E1 E2 E3. exists [e]. unfold wrote, got. cbn [flat_map]. rewrite app_nil_r.
    split; [exact E1|split; [exact E2|]]. intros a _. rewrite E3. reflexivity. }
  destruct o; try congruence; cbn [step];
  unfold callBegin, sendCall, callReturn, callTimeout, callCancel, sendCancel, callShut, oneWay, newStream, upReg,
    regChans, listen, newChan,
    beginStream, upBegin, upMore, closeStream, ret, cWrite, srvRead, srvPart, jobStart, respondErr, jobErrClose,
    jobUpCanc, jobBiRecv, jobDown, jobEnd, jobReply, jobClean, jobDeadline, push,
    cancelCall, regFlight, sWrite, crash, setJ, log;
  try (dm; first [apply H0; reflexivity | eapply H1; [reflexivity|cbn; rewrite ?app_nil_r; reflexivity|reflexivity]]; fail).
  - (* OUserRecv *)
    unfold userRecv. destruct (nth_error (cChan s) c) as [[|m q]|]; try (apply H0; reflexivity).
    exists [EGot c m]. cbn. rewrite app_nil_r. split; [reflexivity|split; [reflexivity|]].
    intros a K. exfalso. exact (K c eq_refl).
  - (* OUpPart *)
    unfold jobUpPart. destruct (sCrash s); [apply H0; reflexivity|].
    destruct (nth_error (sJobs s) p) as [j|]; [|apply H0; reflexivity].
    destruct (jPh j); try (apply H0; reflexivity).
    destruct (mTyp (jReq j)); try (apply H0; reflexivity).
    destruct (jStrm j) as [c|]; [|apply H0; reflexivity].
    destruct (nth_error (sChan s) c) as [[|[q m] t]|]; try (apply H0; reflexivity).
    cbv zeta. unfold crash, setJ, log.
    dm; try (apply H0; reflexivity); try (eapply H1; [reflexivity|cbn; rewrite ?app_nil_r; reflexivity|reflexivity]);
    (eexists [EPart p m _; EClean p]; cbn; rewrite app_nil_r, <- app_assoc; repeat split; reflexivity).
Qed.

(** the channels a and b hold what came for c since the history was h0. *)
Record fed (c : Z) (a b : nat) (h0 : list event) (s : st) : Prop := mkFed {
  d_read : mget Z.eqb c (cRead s) = Some a;
  d_errs : mget Z.eqb c (cErrs s) = Some b;
  d_lt : (a < length (cChan s))%nat /\ (b < length (cChan s))%nat /\ a <> b;
  d_listen : ~ In a (cListen s) /\ ~ In b (cListen s);
  d_only : forall c' x, (mget Z.eqb c' (cRead s) = Some x -> x = a -> c' = c) /\
                        (mget Z.eqb c' (cErrs s) = Some x -> x = b -> c' = c) /\
                        (mget Z.eqb c' (cErrs s) = Some x -> x <> a) /\
                        (mget Z.eqb c' (cRead s) = Some x -> x <> b);
  d_below : (forall c' x, mget Z.eqb c' (cRead s) = Some x -> (x < length (cChan s))%nat) /\
            (forall c' x, mget Z.eqb c' (cErrs s) = Some x -> (x < length (cChan s))%nat) /\
            (forall x, In x (cListen s) -> (x < length (cChan s))%nat);
  d_all : exists h2 qa qb, hist s = h0 ++ h2 /\
     nth_error (cChan s) a = Some qa /\ nth_error (cChan s) b = Some qb /\
     got a h2 ++ qa ++ forC c (wireS s) = forC c (wrote h2) /\
     got b h2 ++ qb ++ errC c (wireS s) = errC c (wrote h2) }.

Lemma fed_same : forall c a b h0 s s' evs, fed c a b h0 s -> chanEq s' s ->
  hist s' = hist s ++ evs -> wireS s' = wireS s ++ wrote evs -> (forall x, got x evs = []) -> fed c a b h0 s'.
Proof.
  intros c a b h0 s s' evs [D1 D2 D3 D4 D5 D6 (h2 & qa & qb & D7 & D8 & D9 & DA & DB)] (E1 & E2 & E3 & E4) EH EW EG.
  constructor; rewrite ?E1, ?E2, ?E3, ?E4; auto.
  exists (h2 ++ evs), qa, qb. rewrite EH, D7, <- app_assoc. split; [reflexivity|]. split; [auto|]. split; [auto|].
  rewrite EW, !got_app, !EG, !app_nil_r, wrote_app, !forC_app, !errC_app, <- DA, <- DB, <- !app_assoc. auto.
Qed.

(** the three ways a channel that is not a or b changes. *)
Lemma tell_chan : forall cp cs m s,
  cRead (tell cp cs m s) = cRead s /\ cErrs (tell cp cs m s) = cErrs s /\ cListen (tell cp cs m s) = cListen s /\
  length (cChan (tell cp cs m s)) = length (cChan s) /\
  forall a, ~ In a cs -> nth_error (cChan (tell cp cs m s)) a = nth_error (cChan s) a.
Proof.
  induction cs as [|c r IH]; intros m s; cbn; [auto|].
  destruct (IH m (if room cp c s then put c m s else s)) as (E1 & E2 & E3 & E4 & E5).
  rewrite E1, E2, E3, E4. destruct (room cp c s); cbn; rewrite ?length_upd; repeat split; auto.
  - intros a NI. rewrite E5 by auto. cbn. rewrite nth_upd. destruct (Nat.eqb_spec c a); [exfalso; auto|reflexivity].
Qed.

Lemma uniq_strm_step : forall cp o s, exists l, cStrm (step cp o s) = l /\ 
  (length (cStrm s) <= length l)%nat /\
  forall i h, nth_error (cStrm s) i = Some h -> exists h', nth_error l i = Some h' /\ sCall h' = sCall h /\ sKind h' = sKind h.
Proof.
  intros cp o s. exists (cStrm (step cp o s)). split; [reflexivity|].
  assert (forall x, cStrm x = cStrm s -> (length (cStrm s) <= length (cStrm x))%nat /\
    forall i h, nth_error (cStrm s) i = Some h -> exists h', nth_error (cStrm x) i = Some h' /\ sCall h' = sCall h /\ sKind h' = sKind h) as H0.
  { intros x ->. eauto. }
  assert (forall x h0, cStrm x = cStrm s ++ [h0] -> (length (cStrm s) <= length (cStrm x))%nat /\
    forall i h, nth_error (cStrm s) i = Some h -> exists h', nth_error (cStrm x) i = Some h' /\ sCall h' = sCall h /\ sKind h' = sKind h) as H1.
  { intros x h0 ->. rewrite app_length. split; [lia|]. intros i h K. exists h. rewrite (nth_app_l _ _ _ _ K). auto. }
  assert (forall x k f, cStrm x = upd k f (cStrm s) -> (forall h, sCall (f h) = sCall h /\ sKind (f h) = sKind h) ->
    (length (cStrm s) <= length (cStrm x))%nat /\
    forall i h, nth_error (cStrm s) i = Some h -> exists h', nth_error (cStrm x) i = Some h' /\ sCall h' = sCall h /\ sKind h' = sKind h) as H2.
  { intros x k f -> HF. rewrite length_upd. split; [lia|]. intros i h K. rewrite nth_upd, K. cbn.
    destruct (Nat.eqb k i); eauto. }
  destruct (srvOp o) eqn:ES.
  { destruct (cli_srvOp cp o s ES) as (_ & _ & _ & E & _). apply H0. exact E. }
  destruct o; try discriminate ES; clear ES; cbn [step];
  unfold callBegin, sendCall, callReturn, callTimeout, callCancel, sendCancel, callShut, oneWay, newStream, upReg,
    regChans, newChan, beginStream, upBegin, upMore, closeStream, ret, cWrite, log.
  all: try (dm; first [apply H0; reflexivity | eapply H1; reflexivity | eapply H2; [reflexivity|]; intros; split; reflexivity]; fail).
  apply H0. unfold cliRead. dm; try reflexivity. cbn.
  exact (proj1 (proj2 (proj2 (proj2 (tell_cli cp (cListen s) m (setWireS l s)))))).
Qed.

Definition uniqStrm (s : st) : Prop :=
  forall i i' h h', nth_error (cStrm s) i = Some h -> nth_error (cStrm s) i' = Some h' -> sCall h = sCall h' -> i = i'.

Lemma uniqStrm_step : forall cp o s, uniqStrm (step cp o s) -> uniqStrm s.
Proof.
  intros cp o s H i i' h h' K K' E. destruct (uniq_strm_step cp o s) as (l & EL & _ & HL).
  destruct (HL i h K) as (x & X1 & X2 & _). destruct (HL i' h' K') as (y & Y1 & Y2 & _).
  rewrite <- EL in *. apply (H i i' x y X1 Y1). congruence.
Qed.

Lemma regs_fed : forall c a b h0 s c', fed c a b h0 s -> c' <> c ->
  fed c a b h0 (snd (regChans c' s)).
Proof.
  intros c a b h0 s c' [D1 D2 (L1 & L2 & L3) D4 D5 [B1 [B2 B3]] (h2 & qa & qb & D7 & D8 & D9 & DA & DB)] NE.
  unfold regChans, newChan. cbn. constructor; cbn.
  - rewrite mget_mset_Z. destruct (Z.eqb_spec c' c); [contradiction|exact D1].
  - rewrite mget_mset_Z. destruct (Z.eqb_spec c' c); [contradiction|exact D2].
  - rewrite !app_length. cbn. repeat split; lia.
  - exact D4.
  - intros c2 x. rewrite !mget_mset_Z. destruct (Z.eqb_spec c' c2) as [<-|N2]; [|apply D5].
    rewrite app_length. cbn. repeat split; intros K; injection K as <-; intros; lia.
  - rewrite !app_length. cbn. split; [|split].
    + intros c2 x. rewrite mget_mset_Z. destruct (Z.eqb_spec c' c2) as [<-|N2]; intros K.
      * injection K as <-. lia.
      * apply B1 in K. lia.
    + intros c2 x. rewrite mget_mset_Z. destruct (Z.eqb_spec c' c2) as [<-|N2]; intros K.
      * injection K as <-. lia.
      * apply B2 in K. lia.
    + intros x K. apply B3 in K. lia.
  - exists h2, qa, qb. split; [exact D7|]. rewrite !(nth_app_l _ _ _ _ (nth_app_l _ _ _ _ D8)).
    rewrite !(nth_app_l _ _ _ _ (nth_app_l _ _ _ _ D9)). auto.
Qed.

Lemma fed_eq : forall c a b h0 s s', fed c a b h0 s -> chanEq s' s -> hist s' = hist s -> wireS s' = wireS s ->
  fed c a b h0 s'.
Proof.
  intros. apply (fed_same c a b h0 s s' []); auto; rewrite ?app_nil_r; auto.
Qed.

Lemma fed_step : forall cp o s c a b h0 i h, fed c a b h0 s -> uniqStrm (step cp o s) ->
  nth_error (cStrm s) i = Some h -> sCall h = c -> sKind h <> KUp \/ sReg h <> None -> 
  fed c a b h0 (step cp o s).
Proof.
  intros cp o s c a b h0 i h HF HU Hi Hc HK.
  destruct (chanOp o) eqn:EO.
  2:{ assert (o <> OCliRead) as N1 by (intros ->; discriminate).
      destruct (wire_other cp o s N1) as (evs & E1 & E2 & E3).
      eapply (fed_same c a b h0 s); eauto using chan_other. intros x. apply E3. intros y ->. discriminate. }
  pose proof HF as [D1 D2 (L1 & L2 & L3) [N1 N2] D5 [B1 [B2 B3]] (h2 & qa & qb & D7 & D8 & D9 & DA & DB)].
  pose proof (uniqStrm_step cp o s HU) as HU0.
  destruct o; try discriminate EO; clear EO; cbn [step] in *.
  - (* ONewStream *)
    unfold newStream in *.
    assert (k = KUp \/ call <> c) as [-> | NE].
    { destruct k; auto; right; intros ->; cbn in HU;
      (assert (i = length (cStrm s)) as EI;
       [eapply HU; [apply nth_app_l; exact Hi|apply nth_app1; right; split; reflexivity|cbn; exact Hc]
       |apply nth_some_lt in Hi; lia]). }
    + exact HF.
    + pose proof (regs_fed c a b h0 s call HF NE) as HR.
      destruct k; [exact HF| |];
      (destruct (regChans call s) as [rr s1]; cbn [snd] in HR;
       apply (fed_eq c a b h0 s1); auto; repeat split).
  - (* OUpReg *)
    unfold upReg in *. destruct (nth_error (cStrm s) i0) as [h'|] eqn:Ei; [|exact HF].
    destruct (sKind h') eqn:EK; try exact HF. destruct (sReg h') eqn:ER; try exact HF.
    assert (sCall h' <> c) as NE.
    { intros E. assert (i = i0) as -> by (eapply HU0; [exact Hi|exact Ei|congruence]).
      rewrite Hi in Ei. injection Ei as <-. destruct HK; congruence. }
    pose proof (regs_fed c a b h0 s (sCall h') HF NE) as HR.
    destruct (regChans (sCall h') s) as [rr s1]; cbn [snd] in HR.
    apply (fed_eq c a b h0 s1); auto. repeat split.
  - (* OListen *)
    unfold listen, newChan. cbn. constructor; cbn; auto.
    + rewrite app_length. cbn. repeat split; lia.
    + split; intros K; apply in_app1 in K; destruct K as [K|K]; auto; lia.
    + rewrite app_length. cbn. split; [|split].
      * intros c2 x K. apply B1 in K. lia.
      * intros c2 x K. apply B2 in K. lia.
      * intros x K. apply in_app1 in K. destruct K as [K| ->]; [apply B3 in K|]; lia.
    + exists h2, qa, qb. rewrite !(nth_app_l _ _ _ _ D8), !(nth_app_l _ _ _ _ D9). auto.
  - (* OCliRead *)
    unfold cliRead. destruct (up s); [|exact HF].
    destruct (wireS s) as [|m r] eqn:EW; [exact HF|].
    assert (forall s', cRead s' = cRead s -> cErrs s' = cErrs s -> cListen s' = cListen s ->
      length (cChan s') = length (cChan s) -> hist s' = hist s -> wireS s' = r ->
      (exists qa' qb', nth_error (cChan s') a = Some qa' /\ nth_error (cChan s') b = Some qb' /\
        qa' ++ forC c r = qa ++ forC c (m :: r) /\ qb' ++ errC c r = qb ++ errC c (m :: r)) -> fed c a b h0 s') as HG.
    { intros s' E1 E2 E3 E4 E5 E6 (qa' & qb' & F1 & F2 & F3 & F4).
      constructor; rewrite ?E1, ?E2, ?E3, ?E4; auto.
      exists h2, qa', qb'. rewrite E5, E6, F3, F4. auto. }
    destruct (wants m s) as [x|] eqn:EWt.
    + destruct (room cp x s); [|exact HF].
      apply HG; auto; [cbn; apply length_upd|]. cbn.
      unfold wants in EWt.
      assert ((mCall m = c -> x = if isErrT (mTyp m) then b else a) /\ (mCall m <> c -> x <> a /\ x <> b)) as [X1 X2].
      { destruct (D5 (mCall m) x) as (P1 & P2 & P3 & P4).
        split.
        - intros E. rewrite E in EWt. destruct (mTyp m); cbn; try (rewrite D1 in EWt; injection EWt as <-; reflexivity).
          rewrite D2 in EWt. injection EWt as <-. reflexivity.
        - intros NE.
          assert (mget Z.eqb (mCall m) (cErrs s) = Some x \/ mget Z.eqb (mCall m) (cRead s) = Some x) as [K|K].
          { destruct (mTyp m); auto. destruct (mget Z.eqb (mCall m) (cErrs s)); [left; congruence|auto]. }
          + split; [auto|intros ->; apply NE; auto].
          + split; [intros ->; apply NE; auto|auto]. }
      cbn [forC errC filter]. destruct (Z.eqb_spec (mCall m) c) as [EC|NC].
      * specialize (X1 EC). destruct (isErrT (mTyp m)); subst x; cbn [negb andb].
        -- exists qa, (qb ++ [m]). rewrite !nth_upd, Nat.eqb_refl, D9, D8.
           destruct (Nat.eqb_spec b a); [congruence|]. cbn. rewrite <- app_assoc. auto.
        -- exists (qa ++ [m]), qb. rewrite !nth_upd, Nat.eqb_refl, D9, D8.
           destruct (Nat.eqb_spec a b); [congruence|]. cbn. rewrite <- app_assoc. auto.
      * destruct (X2 NC). exists qa, qb. rewrite !nth_upd.
        destruct (Nat.eqb_spec x a); [congruence|]. destruct (Nat.eqb_spec x b); [congruence|]. auto.
    + assert (mCall m <> c) as NC.
      { intros E. unfold wants in EWt. rewrite E, D1, D2 in EWt. destruct (mTyp m); discriminate. }
      assert (forC c (m :: r) = forC c r /\ errC c (m :: r) = errC c r) as [FE1 FE2].
      { cbn. destruct (Z.eqb_spec (mCall m) c); [contradiction|auto]. }
      cbv zeta. cbn [cOnce setWireS]. destruct (mget N.eqb (mSeq m) (cOnce s)) as [k|].
      * apply HG; auto. exists qa, qb. rewrite FE1, FE2. auto.
      * destruct (tell_chan cp (cListen (setWireS r s)) m (setWireS r s)) as (T1 & T2 & T3 & T4 & T5).
        destruct (tell_irr cp (cListen (setWireS r s)) m (setWireS r s)) as (_ & _ & I3 & _ & _ & I6).
        apply HG; auto. exists qa, qb. rewrite !T5 by assumption. rewrite FE1, FE2. auto.
  - (* OUserRecv *)
    unfold userRecv. destruct (nth_error (cChan s) c0) as [[|m q]|] eqn:EQ; try exact HF.
    constructor; cbn; rewrite ?length_upd; auto.
    exists (h2 ++ [EGot c0 m]).
    rewrite !nth_upd, D7, !got_app, !wrote_app. cbn. rewrite !app_nil_r.
    destruct (Nat.eqb_spec c0 a) as [->|Na]; [|destruct (Nat.eqb_spec c0 b) as [->|Nb]].
    + destruct (Nat.eqb_spec a b); [congruence|]. rewrite D8 in EQ. injection EQ as ->.
      exists q, qb. rewrite D8, D9, app_nil_r. cbn. rewrite <- !app_assoc. cbn. auto.
    + rewrite D9 in EQ. injection EQ as ->.
      exists qa, q. rewrite D8, D9, app_nil_r. cbn. rewrite <- !app_assoc. cbn. auto.
    + exists qa, qb. rewrite D8, D9, !app_nil_r, <- !app_assoc. auto.
Qed.

(** registered channel numbers are below the number of channels. *)
Definition below (s : st) : Prop :=
  (forall c' x, mget Z.eqb c' (cRead s) = Some x -> (x < length (cChan s))%nat) /\
  (forall c' x, mget Z.eqb c' (cErrs s) = Some x -> (x < length (cChan s))%nat) /\
  (forall x, In x (cListen s) -> (x < length (cChan s))%nat).

Lemma below_same : forall s s', below s -> cRead s' = cRead s -> cErrs s' = cErrs s -> cListen s' = cListen s ->
  (length (cChan s) <= length (cChan s'))%nat -> below s'.
Proof.
  intros s s' (B1 & B2 & B3) E1 E2 E3 L. unfold below. rewrite E1, E2, E3. split; [|split]; intros.
  - apply B1 in H. lia.
  - apply B2 in H. lia.
  - apply B3 in H. lia.
Qed.

Lemma below_regs : forall c s, below s -> below (snd (regChans c s)).
Proof.
  intros c s (B1 & B2 & B3). unfold regChans, newChan. cbn. unfold below. cbn. rewrite !app_length. cbn.
  split; [|split].
  - intros c2 x. rewrite mget_mset_Z. destruct (Z.eqb_spec c c2) as [<-|N2]; intros K.
    + injection K as <-. lia.
    + apply B1 in K. lia.
  - intros c2 x. rewrite mget_mset_Z. destruct (Z.eqb_spec c c2) as [<-|N2]; intros K.
    + injection K as <-. lia.
    + apply B2 in K. lia.
  - intros x K. apply B3 in K. lia.
Qed.

Lemma below_step : forall cp o s, below s -> below (step cp o s).
Proof.
  intros cp o s HB. destruct (chanOp o) eqn:EO.
  2:{ destruct (chan_other cp o s EO) as (E1 & E2 & E3 & E4). apply (below_same s); auto. rewrite E4. lia. }
  destruct o; try discriminate EO; clear EO; cbn [step].
  - unfold newStream. pose proof (below_regs call s HB) as HR.
    destruct k; [exact HB| |]; (destruct (regChans call s) as [rr s1]; cbn [snd] in HR; exact HR).
  - unfold upReg. destruct (nth_error (cStrm s) i) as [h|]; [|exact HB].
    destruct (sKind h); try exact HB. destruct (sReg h); try exact HB.
    pose proof (below_regs (sCall h) s HB) as HR. destruct (regChans (sCall h) s) as [rr s1]. exact HR.
  - destruct HB as (B1 & B2 & B3). unfold listen, newChan. cbn. unfold below. cbn. rewrite app_length. cbn.
    split; [|split].
    + intros c2 x K. apply B1 in K. lia.
    + intros c2 x K. apply B2 in K. lia.
    + intros x K. apply in_app1 in K. destruct K as [K| ->]; [apply B3 in K|]; lia.
  - unfold cliRead. destruct (up s); [|exact HB]. destruct (wireS s) as [|m r]; [exact HB|].
    destruct (wants m s) as [x|].
    + destruct (room cp x s); [|exact HB]. apply (below_same s); auto. cbn. rewrite length_upd. lia.
    + cbv zeta. cbn [cOnce setWireS]. destruct (mget N.eqb (mSeq m) (cOnce s)); [exact HB|].
      destruct (tell_chan cp (cListen (setWireS r s)) m (setWireS r s)) as (T1 & T2 & T3 & T4 & T5).
      apply (below_same s); auto. rewrite T4. cbn. lia.
  - unfold userRecv. dm; try exact HB. apply (below_same s); auto. cbn. rewrite length_upd. lia.
Qed.

Lemma below_run : forall cp os, below (run cp os init).
Proof.
  intros cp os. apply (run_snoc_ind (fun os => below (run cp os init))).
  - split; [|split]; cbn; try discriminate. intros x [].
  - intros l o IH. rewrite run_snoc. apply below_step. exact IH.
Qed.

(** a new Downloader or Bistreamer. *)
Lemma fed_new : forall k c svc s, below s -> k <> KUp ->
  (forall m, In m (wireS s) -> mCall m <> c) ->
  let a := length (cChan s) in
  fed c a (S a) (hist s) (newStream k c svc s) /\
  exists h, nth_error (cStrm (newStream k c svc s)) (length (cStrm s)) = Some h /\ sCall h = c /\ sKind h = k.
Proof.
  intros k c svc s (B1 & B2 & B3) NK HW a.
  assert (forC c (wireS s) = [] /\ errC c (wireS s) = []) as [W1 W2].
  { split; [unfold forC|unfold errC]; apply filter_none; apply Forall_forall; intros m Hm; apply HW in Hm;
    apply Z.eqb_neq in Hm; rewrite Hm; reflexivity. }
  assert (fed c a (S a) (hist s) (snd (regChans c s))) as HF.
  { unfold regChans, newChan. cbn. constructor; cbn.
    - rewrite mget_mset_Z, Z.eqb_refl. reflexivity.
    - rewrite mget_mset_Z, Z.eqb_refl, app_length. cbn. f_equal. unfold a. lia.
    - rewrite !app_length. cbn. unfold a. repeat split; lia.
    - split; intros K; apply B3 in K; unfold a in K; lia.
    - intros c2 x. rewrite !mget_mset_Z, app_length. cbn. destruct (Z.eqb_spec c c2) as [<-|N2].
      + repeat split; intros K; injection K as <-; unfold a; intros; lia.
      + split; [|split; [|split]]; intros K; first [apply B1 in K|apply B2 in K]; unfold a; intros; lia.
    - rewrite !app_length. cbn. split; [|split].
      + intros c2 x. rewrite mget_mset_Z. destruct (Z.eqb_spec c c2) as [<-|N2]; intros K.
        * injection K as <-. lia.
        * apply B1 in K. lia.
      + intros c2 x. rewrite mget_mset_Z. destruct (Z.eqb_spec c c2) as [<-|N2]; intros K.
        * injection K as <-. lia.
        * apply B2 in K. lia.
      + intros x K. apply B3 in K. lia.
    - exists [], [], []. rewrite app_nil_r. split; [reflexivity|].
      assert (nth_error ((cChan s ++ [[]]) ++ [[]]) a = Some []) as E1.
      { apply nth_app_l. apply nth_app1. auto. }
      assert (nth_error ((cChan s ++ [[]]) ++ [[]]) (S a) = Some []) as E2.
      { apply nth_app1. right. rewrite app_length. cbn. unfold a. split; [lia|reflexivity]. }
      split; [exact E1|split; [exact E2|split; [exact W1|exact W2]]]. }
  unfold newStream.
  assert (exists rr, regChans c s = (rr, snd (regChans c s)) /\ cStrm (snd (regChans c s)) = cStrm s) as (rr & ER & ES).
  { exists (fst (regChans c s)). split; [destruct (regChans c s); reflexivity|reflexivity]. }
  set (s1 := snd (regChans c s)) in *. clearbody s1. rewrite ER.
  destruct k; [contradiction| |];
  (split; [apply (fed_eq c a (S a) (hist s) s1); auto; repeat split|];
   eexists; cbn; rewrite ES; split; [apply nth_app1; right; split; reflexivity|split; reflexivity]).
Qed.

Lemma fed_run : forall cp os s c a b h0 i h, fed c a b h0 s -> uniqStrm (run cp os s) ->
  nth_error (cStrm s) i = Some h -> sCall h = c -> sKind h <> KUp ->
  fed c a b h0 (run cp os s).
Proof.
  induction os as [|o r IH]; intros s c a b h0 i h HF HU Hi Hc HK; cbn [run] in *; [exact HF|].
  assert (uniqStrm (step cp o s)) as HU1.
  { clear - HU. revert HU. generalize (step cp o s) as x. induction r as [|o' r IH]; intros x HU; [exact HU|].
    cbn [run] in HU. eapply uniqStrm_step. apply IH. exact HU. }
  destruct (uniq_strm_step cp o s) as (l & EL & _ & HL). destruct (HL i h Hi) as (h' & H1 & H2 & H3).
  rewrite <- EL in H1.
  eapply (IH (step cp o s) c a b h0 i h'); auto; [|congruence|congruence].
  eapply fed_step; eauto.
Qed.
