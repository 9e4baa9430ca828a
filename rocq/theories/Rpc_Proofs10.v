(** * Calls and streams: registrations, causes of results, ends of uploads *)

From Coq Require Import ZArith NArith List Bool Lia PeanoNat.
From Verif Require Import Rpc_Model Rpc_Spec Rpc_Proofs Rpc_Proofs4.
Import ListNotations.
Local Open Scope Z_scope.

Ltac brk := repeat match goal with
  | |- context [match ?x with _ => _ end] =>
      lazymatch x with context [match _ with _ => _ end] => fail | _ => destruct x eqn:? end
  end.
Ltac unf := unfold step, callBegin, sendCall, callReturn, callTimeout, callCancel, sendCancel, callShut, oneWay, newStream,
  beginStream, upBegin, upReg, upMore, closeStream, listen, cliRead, userRecv, srvRead, srvPart, jobStart, jobErrClose,
  jobUpPart, jobUpCanc, jobBiRecv, jobDown, jobEnd, jobReply, jobClean, jobDeadline, push, respondErr, ret, sWrite, cWrite, crash,
  cancelCall, regFlight, setJ, put, log; unfold regChans; unfold newChan.

Lemma tell_hist : forall cp cs m s, hist (tell cp cs m s) = hist s.
Proof. intros cp. induction cs as [|c cs IH]; intros m s; [reflexivity|]. cbn [tell]. rewrite IH. destruct (room cp c s); reflexivity. Qed.
Lemma tell_strm : forall cp cs m s, cStrm (tell cp cs m s) = cStrm s.
Proof. intros cp. induction cs as [|c cs IH]; intros m s; [reflexivity|]. cbn [tell]. rewrite IH. destruct (room cp c s); reflexivity. Qed.
Lemma tell_sent : forall cp cs m s, sent (tell cp cs m s) = sent s.
Proof. intros cp. induction cs as [|c cs IH]; intros m s; [reflexivity|]. cbn [tell]. rewrite IH. destruct (room cp c s); reflexivity. Qed.
Lemma tell_regs : forall cp cs m s, sRegs (tell cp cs m s) = sRegs s.
Proof. intros cp. induction cs as [|c cs IH]; intros m s; [reflexivity|]. cbn [tell]. rewrite IH. destruct (room cp c s); reflexivity. Qed.
Lemma tell_calls : forall cp cs m s, cCalls (tell cp cs m s) = cCalls s.
Proof. intros cp. induction cs as [|c cs IH]; intros m s; [reflexivity|]. cbn [tell]. rewrite IH. destruct (room cp c s); reflexivity. Qed.

(** ** Registrations *)

Lemma regs_step : forall cp o s, sRegs (step cp o s) = match o with ORegister k svc => (k, svc) :: sRegs s | _ => sRegs s end.
Proof.
  intros cp o s. destruct o; unf; brk; cbn; rewrite ?tell_regs; try reflexivity; brk; reflexivity.
Qed.
Lemma regs_run : forall cp os k svc, In (k, svc) (sRegs (run cp os init)) <-> In (ORegister k svc) os.
Proof.
  intros cp os k svc. revert os. apply run_snoc_ind; [cbn; tauto|]. intros os o IH. rewrite run_snoc, regs_step, in_app_iff.
  destruct o; cbn [In]; rewrite ?IH; try (split; [auto|intros [H|[H|[]]]; [exact H|discriminate H]]).
  split; [intros [H|H]; [injection H as -> ->; auto|auto]|intros [H|[H|[]]]; [auto|injection H as -> ->; auto]].
Qed.
Lemma isReg_run : forall cp os k svc, isReg k svc (run cp os init) = true -> In (ORegister k svc) os.
Proof.
  intros cp os k svc H. unfold isReg in H. apply existsb_exists in H. destruct H as ([k' v'] & Hi & H). cbn [fst snd] in H.
  apply andb_prop in H as [H1 H2]. apply Z.eqb_eq in H2. subst. rewrite regs_run in Hi. destruct k', k; cbn in H1; congruence.
Qed.

(** the function a message of each type is handed to *)
Lemma run_step : forall cp o s p m, In (ERun p m) (hist (step cp o s)) -> In (ERun p m) (hist s) \/
  exists k, serves (mTyp m) = Some k /\ isReg k (mSvc m) s = true.
Proof.
  intros cp o s p m. destruct o;
  try (unf; brk; cbn; rewrite ?tell_hist; cbn; rewrite ?in_app_iff; cbn; intuition discriminate).
  unfold step, jobStart. destruct (sCrash s); [auto|]. destruct (nth_error (sJobs s) p0) as [j|]; [|auto].
  destruct (jPh j); auto.
  destruct (mTyp (jReq j)) eqn:ET; unf; brk; cbn; rewrite ?in_app_iff; cbn;
    intros HH; auto; destruct HH as [HH|[HH|[]]]; auto; try discriminate HH; injection HH as <- <-; right; eexists; (split; [|eassumption]); solve [rewrite ET; reflexivity|congruence|match goal with E : mTyp (jReq j) = _ |- _ => rewrite E; reflexivity end].
Qed.

(** ** Why a call returned *)

Definition cause (k : nat) (r : result) (o : op) (s : st) : Prop :=
  match r with
  | RReply _ | RSendErr => o = OReturn k
  | RTimeout => o = OTimeout k
  | RCancelled => o = OCancel k
  | RCancelSent => exists c, nth_error (cCalls s) k = Some c /\ kPh c = PCancel
  | RShutdown => o = OShut k /\ up s = false
  end.
Lemma ret_step : forall cp o s k r, In (ERet k r) (hist (step cp o s)) -> In (ERet k r) (hist s) \/ cause k r o s.
Proof.
  intros cp o s k r. destruct o;
  try (unf; brk; cbn; rewrite ?tell_hist; cbn; rewrite ?in_app_iff; cbn; intuition discriminate);
  unf; brk; cbn; rewrite ?in_app_iff; cbn; auto; intros HH; destruct HH as [HH|[HH|[]]]; auto; injection HH as <- <-; cbn; eauto.
Qed.
Lemma canc_step : forall cp o s k c, nth_error (cCalls (step cp o s)) k = Some c -> kPh c = PCancel ->
  o = OCancel k \/ exists c', nth_error (cCalls s) k = Some c' /\ kPh c' = PCancel.
Proof.
  assert (U : forall k0 k f (l : list callrec) c, nth_error (upd k0 f l) k = Some c ->
    nth_error l k = Some c \/ (k = k0 /\ exists c', nth_error l k = Some c' /\ c = f c')).
  { intros k0 k f l c. revert k0 k. induction l as [|x l IH]; intros k0 k H; [destruct k0; cbn in H; destruct k; discriminate|].
    destruct k0, k; cbn in *; auto.
    - injection H as <-. right. split; [reflexivity|]. eauto.
    - destruct (IH _ _ H) as [X|(-> & X)]; auto. }
  intros cp o s k c H HP. destruct o; revert H; try (unf; brk; cbn; rewrite ?tell_calls; cbn; eauto; fail).
  all: unf; brk; cbn; intros H; rewrite ?tell_calls in H; cbn in H; eauto;
    try (destruct (U _ _ _ _ _ H) as [H'|(-> & c' & H1 & ->)]; [eauto|]; cbn in HP; try discriminate HP; eauto; fail).
  destruct (Nat.lt_ge_cases k (length (cCalls s))).
  - rewrite nth_error_app1 in H by lia. eauto.
  - rewrite nth_error_app2 in H by lia. destruct (k - length (cCalls s))%nat as [|n]; cbn in H; [injection H as <-; discriminate HP|].
    destruct n; discriminate H.
Qed.
Lemma upd_nth : forall A (k0 k : nat) (f : A -> A) (l : list A) c, nth_error l k = Some c ->
  nth_error (upd k0 f l) k = Some (if Nat.eqb k0 k then f c else c).
Proof.
  intros A k0 k f l. revert k0 k. induction l as [|x l IH]; intros k0 k c H; [destruct k; discriminate|].
  destruct k0, k; cbn in *; auto; congruence.
Qed.
Lemma app_nth : forall A (l : list A) x k c, nth_error l k = Some c -> nth_error (l ++ x) k = Some c.
Proof. intros A l x k c H. rewrite nth_error_app1; [exact H|]. apply nth_error_Some. congruence. Qed.
Definition cancd (p : phase) : Prop := p = PCancel \/ p = PRet RCancelled \/ p = PRet RCancelSent.
Lemma cancd_step : forall cp o s k c, nth_error (cCalls s) k = Some c -> cancd (kPh c) ->
  exists c', nth_error (cCalls (step cp o s)) k = Some c' /\ cancd (kPh c').
Proof.
  unfold cancd. intros cp o s k c H HP.
  destruct o; unf; brk; cbn; rewrite ?tell_calls; cbn; eauto using app_nth;
    (eexists; split; [apply upd_nth; eassumption|]);
    (match goal with |- context [Nat.eqb ?a k] => destruct (Nat.eqb_spec a k) as [->|NE] end); cbn; auto;
    match goal with E : nth_error (cCalls s) k = Some ?c' |- _ => rewrite H in E; injection E as <- end;
    match goal with E : kPh c = _ |- _ => rewrite E in HP end;
    destruct HP as [X|[X|X]]; try discriminate X; auto.
Qed.

(** the phases of a call whose request may have been written *)
Definition handed (p : phase) : Prop := p <> PHand /\ p <> PRet RCancelled.
Definition sentInv (s : st) : Prop := forall p m k, nth_error (sent s) p = Some (m, ByCall k) ->
  exists c, nth_error (cCalls s) k = Some c /\ handed (kPh c).
Lemma handed_step : forall cp o s k c, nth_error (cCalls s) k = Some c -> handed (kPh c) ->
  exists c', nth_error (cCalls (step cp o s)) k = Some c' /\ handed (kPh c').
Proof.
  unfold handed. intros cp o s k c H [HP HQ].
  destruct o; unf; brk; cbn; rewrite ?tell_calls; cbn; eauto using app_nth;
    (eexists; split; [apply upd_nth; eassumption|]);
    (match goal with |- context [Nat.eqb ?a k] => destruct (Nat.eqb_spec a k) as [->|NE] end); cbn; auto;
    match goal with E : nth_error (cCalls s) k = Some ?c' |- _ => rewrite H in E; injection E as <- end;
    try (split; discriminate); congruence.
Qed.
Lemma sent_step : forall cp o s, exists l, sent (step cp o s) = sent s ++ l /\
  (forall m k, In (m, ByCall k) l -> exists c, nth_error (cCalls (step cp o s)) k = Some c /\ kPh c = PWait) /\
  (forall m i, In (m, ByStrm i) l -> (mTyp m = TUpMore \/ mTyp m = TUpEnd) ->
     exists h, nth_error (cStrm s) i = Some h /\ sDone h = false /\
       exists h', nth_error (cStrm (step cp o s)) i = Some h' /\ (mTyp m = TUpEnd -> sDone h' = true)) /\ (length l <= 1)%nat.
Proof.
  intros cp o s.
  destruct o; try (exists []; unf; brk; cbn; rewrite ?tell_sent; cbn; rewrite app_nil_r;
    (split; [reflexivity|]; split; [intros ? ? []|]; split; [intros ? ? []|]; lia); fail).
  all: unf; brk; cbn;
    try (exists []; rewrite app_nil_r; split; [reflexivity|]; split; [intros ? ? []|]; split; [intros ? ? []|]; cbn; lia);
    (eexists; split; [reflexivity|]; split; [intros ? ? [X|[]]|]; [|split; [intros ? ? [X|[]]|]; [|cbn; lia]]);
    try discriminate X; injection X as <- <-; cbn;
    try (intros [Y|Y]; discriminate Y).
  { eexists. split; [apply upd_nth; eassumption|]. rewrite Nat.eqb_refl. reflexivity. }
  all: intros _; eexists; (split; [eassumption|]); (split; [assumption|]); eexists; (split; [apply upd_nth; eassumption|]);
    rewrite Nat.eqb_refl; (reflexivity || discriminate).
Qed.
Lemma done_step : forall cp o s i h, nth_error (cStrm s) i = Some h -> sDone h = true ->
  exists h', nth_error (cStrm (step cp o s)) i = Some h' /\ sDone h' = true.
Proof.
  intros cp o s i h H HP.
  destruct o; unf; brk; cbn; rewrite ?tell_strm; cbn; eauto using app_nth;
    (eexists; split; [apply upd_nth; eassumption|]);
    (match goal with |- context [Nat.eqb ?a i] => destruct (Nat.eqb_spec a i) as [->|NE] end); cbn; auto;
    match goal with E : nth_error (cStrm s) i = Some _ |- _ => rewrite H in E; injection E as <- end; congruence.
Qed.

Definition endInv (s : st) : Prop :=
  (forall p m i, nth_error (sent s) p = Some (m, ByStrm i) -> mTyp m = TUpEnd ->
     exists h, nth_error (cStrm s) i = Some h /\ sDone h = true) /\
  (forall p p' m m' i, nth_error (sent s) p = Some (m, ByStrm i) -> mTyp m = TUpEnd -> (p < p')%nat ->
     nth_error (sent s) p' = Some (m', ByStrm i) -> mTyp m' <> TUpMore /\ mTyp m' <> TUpEnd).
Lemma sent_cases : forall (l : list (msg * origin)) x p e, (length x <= 1)%nat -> nth_error (l ++ x) p = Some e ->
  nth_error l p = Some e \/ (p = length l /\ In e x).
Proof.
  intros l x p e Hx H. destruct (Nat.lt_ge_cases p (length l)) as [Hp|Hp].
  - rewrite nth_error_app1 in H by lia. auto.
  - rewrite nth_error_app2 in H by lia. right. split; [|eapply nth_error_In; exact H].
    assert (p - length l < length x)%nat by (apply nth_error_Some; congruence). lia.
Qed.
Lemma end_run : forall cp os, endInv (run cp os init).
Proof.
  intros cp. apply run_snoc_ind.
  - split; intros p; intros; destruct p; discriminate.
  - intros os o [I1 I2]. rewrite run_snoc. set (s := run cp os init) in *.
    destruct (sent_step cp o s) as (l & E & _ & HS & HL). split.
    + intros p m i H T. rewrite E in H. destruct (sent_cases _ _ _ _ HL H) as [H'|[_ H']].
      * destruct (I1 _ _ _ H' T) as (h & Hh & Hd). exact (done_step cp o s i h Hh Hd).
      * destruct (HS _ _ H' (or_intror T)) as (h & _ & _ & h' & Hh' & Hd). eauto.
    + intros p p' m m' i H T Hp H'. rewrite E in H, H'. destruct (sent_cases _ _ _ _ HL H) as [X|[X _]].
      * destruct (sent_cases _ _ _ _ HL H') as [X'|[_ X']]; [exact (I2 _ _ _ _ _ X T Hp X')|].
        destruct (I1 _ _ _ X T) as (h & Hh & Hd).
        split; intros T'; (destruct (HS _ _ X') as (h2 & Hh2 & Hd2 & _); [auto|congruence]).
      * destruct (sent_cases _ _ _ _ HL H') as [X'|[X' _]]; [|lia].
        assert (p' < length (sent s))%nat by (apply nth_error_Some; congruence). lia.
Qed.
Lemma sentInv_run : forall cp os, sentInv (run cp os init).
Proof.
  intros cp. apply run_snoc_ind.
  - intros p; intros; destruct p; discriminate.
  - intros os o IH. rewrite run_snoc. set (s := run cp os init) in *. destruct (sent_step cp o s) as (l & E & HS & _ & HL).
    intros p m k H. rewrite E in H. destruct (sent_cases _ _ _ _ HL H) as [H'|[_ H']].
    + destruct (IH _ _ _ H') as (c & Hc & Hh). exact (handed_step cp o s k c Hc Hh).
    + destruct (HS _ _ H') as (c & Hc & Hp). exists c. split; [exact Hc|]. rewrite Hp. split; discriminate.
Qed.

(** ** The client's channels *)

Definition boxed (cp : caps) (s : st) : Prop := forall c q, nth_error (cChan s) c = Some q -> (length q <= capUser cp)%nat.
Lemma put_boxed : forall cp c m s, boxed cp s -> room cp c s = true -> boxed cp (put c m s).
Proof.
  intros cp c m s B R c' q H. unfold put in H. cbn in H. unfold room in R. destruct (nth_error (cChan s) c) as [q0|] eqn:E; [|discriminate R].
  destruct (nth_error (cChan s) c') as [q1|] eqn:E1.
  - rewrite (upd_nth _ c c' _ _ _ E1) in H. destruct (Nat.eqb_spec c c') as [->|NE].
    + injection H as <-. rewrite E in E1. injection E1 as <-. apply Nat.ltb_lt in R. rewrite app_length. cbn. lia.
    + injection H as <-. exact (B _ _ E1).
  - exfalso. clear - H E1. revert c c' H E1. induction (cChan s) as [|x l IH]; intros c c' H E1; [destruct c; cbn in H; congruence|].
    destruct c, c'; cbn in *; try congruence. eapply IH; eassumption.
Qed.
Lemma tell_boxed : forall cp cs m s, boxed cp s -> boxed cp (tell cp cs m s).
Proof.
  intros cp. induction cs as [|c cs IH]; intros m s B; [exact B|]. cbn [tell]. apply IH. destruct (room cp c s) eqn:R; [|exact B].
  apply put_boxed; assumption.
Qed.
Lemma chan_grow : forall cp (l : list (list msg)) c q, (forall c q, nth_error l c = Some q -> (length q <= capUser cp)%nat) ->
  nth_error (l ++ [[]]) c = Some q -> (length q <= capUser cp)%nat.
Proof.
  intros cp l c q B H. destruct (Nat.lt_ge_cases c (length l)).
  - rewrite nth_error_app1 in H by lia. eauto.
  - rewrite nth_error_app2 in H by lia. destruct (c - length l)%nat as [|n]; cbn in H; [injection H as <-; cbn; lia|destruct n; discriminate H].
Qed.
Lemma boxed_step : forall cp o s, boxed cp s -> boxed cp (step cp o s).
Proof.
  intros cp o s B. destruct o;
    try (unf; brk; intros c1 q1; cbn; eauto; fail);
    try (unf; brk; intros c1 q1; cbn; intros H; repeat (eapply chan_grow; [|exact H]; clear H; intros ? ? H); eauto; fail).
  - unfold step, cliRead. destruct (up s); [|exact B]. destruct (wireS s) as [|m r]; [exact B|].
    assert (B' : boxed cp (setWireS r s)) by exact B.
    destruct (wants m s) as [c|].
    + destruct (room cp c s) eqn:R; [|exact B]. apply put_boxed; [exact B'|exact R].
    + destruct (mget N.eqb (mSeq m) (cOnce (setWireS r s))); [exact B|]. apply tell_boxed. exact B'.
  - unfold step, userRecv. destruct (nth_error (cChan s) c) as [[|m q]|] eqn:E; try exact B.
    intros c1 q1 H. cbn in H. destruct (nth_error (cChan s) c1) as [q0|] eqn:E1.
    + rewrite (upd_nth _ c c1 _ _ _ E1) in H. destruct (Nat.eqb_spec c c1) as [->|NE]; injection H as <-.
      * specialize (B _ _ E1). rewrite E in E1. injection E1 as <-. cbn in *. lia.
      * eauto.
    + exfalso. clear - H E1. revert c c1 H E1. induction (cChan s) as [|x l IH]; intros c c1 H E1; [destruct c; cbn in H; congruence|].
      destruct c, c1; cbn in *; try congruence. eapply IH; eassumption.
Qed.
Lemma boxed_run : forall cp os, boxed cp (run cp os init).
Proof.
  intros cp. apply run_snoc_ind; [intros [|c] q H; discriminate H|]. intros os o IH. rewrite run_snoc. apply boxed_step. exact IH.
Qed.
