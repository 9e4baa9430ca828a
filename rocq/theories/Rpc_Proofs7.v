(** * Proofs about calls and streams: the numbers of the parts *)

From Coq Require Import ZArith NArith List Bool Lia PeanoNat.
From Verif Require Import Rpc_Model Rpc_Proofs Rpc_Proofs2 Rpc_Proofs3 Rpc_Proofs4 Rpc_Proofs5 Rpc_Proofs6.
Import ListNotations.
Local Open Scope Z_scope.

Definition downsOf (p : nat) (e : event) : list msg :=
  match e with EDown q m => if Nat.eqb q p then [m] else [] | _ => [] end.
Definition downs (p : nat) (h : list event) : list msg := flat_map (downsOf p) h.

Lemma gives_tr : forall p s, gives p (hist s) = gives p (tr p s).
Proof.
  intros p s. unfold tr, gives, downs. induction (hist s) as [|e r IH]; [reflexivity|].
  cbn [flat_map filter]. rewrite IH.
  destruct e; cbn [about]; try reflexivity; destruct (Nat.eqb p0 p) eqn:E; cbn; rewrite ?E; reflexivity.
Qed.

Lemma downs_tr : forall p s, downs p (hist s) = downs p (tr p s).
Proof.
  intros p s. unfold tr, gives, downs. induction (hist s) as [|e r IH]; [reflexivity|].
  cbn [flat_map filter]. rewrite IH.
  destruct e; cbn [about]; try reflexivity; destruct (Nat.eqb p0 p) eqn:E; cbn; rewrite ?E; reflexivity.
Qed.

Lemma answer_tr : forall p r s, In (EAnswer p r) (hist s) <-> In (EAnswer p r) (tr p s).
Proof.
  intros p r s. unfold tr. rewrite filter_In. cbn. rewrite Nat.eqb_refl. tauto.
Qed.

Definition numbered (l : list msg) : Prop := forall i m, nth_error l i = Some m -> mPart m = Z.of_nat i.
Definition noEnd (l : list msg) : Prop := Forall (fun m => isEnd (mTyp m) = false) l.
Definition full (l : list msg) : Prop :=
  exists l' m, l = l' ++ [m] /\ noEnd l' /\ isEnd (mTyp m) = true.

Lemma numbered_snoc : forall l m, numbered l -> mPart m = Z.of_nat (length l) -> numbered (l ++ [m]).
Proof.
  intros l m H E i x K. apply nth_app1 in K. destruct K as [K|[-> ->]]; auto.
Qed.

Record upNum (s : st) (p : nat) (j : job) : Prop := mkUpNum {
  un_num : numbered (gives p (tr p s));
  un_first : forall m, nth_error (gives p (tr p s)) 0 = Some m -> m = jReq j;
  un_call : Forall (fun m => mCall m = mCall (jReq j)) (gives p (tr p s));
  un_ph : match jPh j with
          | JRun n => length (gives p (tr p s)) = n /\ noEnd (gives p (tr p s))
          | JRet _ e => e = 0 -> full (gives p (tr p s))
          | JSpawn | JPart => gives p (tr p s) = []
          | _ => True
          end;
  un_ans : forall r, In (EAnswer p r) (tr p s) -> mTyp r = TReply -> mErr r = 0 -> full (gives p (tr p s)) }.

Definition inv6 (s : st) : Prop :=
  forall p j, nth_error (sJobs s) p = Some j -> mTyp (jReq j) = TUpBegin -> upNum s p j.

Lemma upNum_keep : forall s s' p j j' evs, upNum s p j -> jReq j' = jReq j ->
  tr p s' = tr p s ++ evs -> gives p evs = [] ->
  (forall r, In (EAnswer p r) evs -> mTyp r = TReply -> mErr r = 0 -> full (gives p (tr p s))) ->
  (match jPh j' with
   | JRun n => length (gives p (tr p s)) = n /\ noEnd (gives p (tr p s))
   | JRet _ e => e = 0 -> full (gives p (tr p s))
   | JSpawn | JPart => gives p (tr p s) = []
   | _ => True
   end) -> upNum s' p j'.
Proof.
  intros s s' p j j' evs [N1 N2 N3 N4 N5] E1 E2 E3 HA HP.
  assert (gives p (tr p s') = gives p (tr p s)) as EG by (rewrite E2, gives_app, E3, app_nil_r; reflexivity).
  constructor; rewrite ?EG, ?E1; auto.
  intros r K. rewrite E2 in K. apply in_app_iff in K. destruct K as [K|K]; eauto.
Qed.

Lemma inv6_step : forall cp o s, inv2 s -> tagged s -> inv6 s -> inv6 (step cp o s).
Proof.
  intros cp o s H2 HT HI p j' Hp' HU'.
  pose proof (jtq_step cp o s p) as HJ. unfold jtq in HJ. rewrite Hp' in HJ.
  destruct (nth_error (sJobs s) p) as [j|] eqn:Hp.
  2:{ destruct HJ as (HPh & _ & ET). pose proof (v_tr s H2 p) as K. rewrite Hp in K.
      rewrite K in ET. constructor; rewrite ET; cbn.
      - intros i m X. destruct i; discriminate.
      - discriminate.
      - constructor.
      - destruct HPh as [-> | ->]; reflexivity.
      - intros r []. }
  destruct HJ as (ER & evs & HJ & ET).
  assert (mTyp (jReq j) = TUpBegin) as HU by congruence.
  pose proof (HI p j Hp HU) as HN. pose proof HN as [N1 N2 N3 N4 N5].
  destruct HJ as [E1|E1 E2 E3|E1 E2 E3|evs E1 E3 HE|E3|n c q m t E1 E2 ES EC C1 C2 C3 CE E3 EN
                 |n c q m t b e E1 E2 ES EC C1 C2 C3 CE E3|n E1 E2 E3|n c q m t E1 E2|n body last evs E1 E2
                 |n b e E1 E2|b e evs E1 E3 HE].
  - eapply upNum_keep; eauto; [intros r []|]. rewrite E1. exact N4.
  - eapply upNum_keep; eauto.
    + intros r [K|[]]. discriminate.
    + rewrite E3. rewrite E1 in N4. rewrite N4. split; [reflexivity|constructor].
  - congruence.
  - eapply upNum_keep; eauto.
    + destruct HE as [-> | ->]; reflexivity.
    + intros r K. destruct HE as [-> | ->]; [destruct K|]. destruct K as [K|[]]. injection K as <-. discriminate.
    + rewrite E3. exact I.
  - eapply upNum_keep; eauto; [intros r []|]. rewrite E3. exact I.
  - (* a part *)
    rewrite E1 in N4. destruct N4 as [L NE].
    assert (gives p (tr p (step cp o s)) = gives p (tr p s) ++ [m]) as EG.
    { rewrite ET, gives_app. cbn. rewrite Nat.eqb_refl. reflexivity. }
    destruct HT as [HT _]. destruct (HT c _ q m EC (or_introl eq_refl)) as (jq & Q1 & Q2).
    assert (n = 0%nat -> m = jReq j) as M0.
    { intros ->. rewrite (C1 eq_refl), Hp in Q1. injection Q1 as <-. auto. }
    constructor; rewrite ?EG, ?ER.
    + apply numbered_snoc; [exact N1|]. rewrite L. exact C2.
    + intros x K. destruct (gives p (tr p s)) as [|y r] eqn:EY; cbn in K.
      * injection K as <-. apply M0. cbn in L. auto.
      * apply N2. exact K.
    + apply Forall_app. split; [exact N3|]. constructor; [|constructor].
      destruct n as [|n']; [rewrite M0; reflexivity|apply C3; lia].
    + rewrite E3. rewrite app_length. cbn. split; [lia|]. apply Forall_app. split; [exact NE|]. constructor; auto.
    + intros r K Kt Ke. rewrite ET in K. apply in_app_iff in K.
      destruct K as [K|[K|[]]]; [|discriminate].
      exfalso. destruct (N5 r K Kt Ke) as (l' & x & F1 & F2 & F3). rewrite F1 in NE.
      apply Forall_app in NE. destruct NE as [_ NE]. inversion NE; congruence.
  - (* the last one *)
    rewrite E1 in N4. destruct N4 as [L NE].
    assert (gives p (tr p (step cp o s)) = gives p (tr p s) ++ [m]) as EG.
    { rewrite ET, gives_app. cbn. rewrite Nat.eqb_refl. reflexivity. }
    destruct HT as [HT _]. destruct (HT c _ q m EC (or_introl eq_refl)) as (jq & Q1 & Q2).
    assert (n = 0%nat -> m = jReq j) as M0.
    { intros ->. rewrite (C1 eq_refl), Hp in Q1. injection Q1 as <-. auto. }
    constructor; rewrite ?EG, ?ER.
    + apply numbered_snoc; [exact N1|]. rewrite L. exact C2.
    + intros x K. destruct (gives p (tr p s)) as [|y r] eqn:EY; cbn in K.
      * injection K as <-. apply M0. cbn in L. auto.
      * apply N2. exact K.
    + apply Forall_app. split; [exact N3|]. constructor; [|constructor].
      destruct n as [|n']; [rewrite M0; reflexivity|apply C3; lia].
    + rewrite E3. intros ->. exists (gives p (tr p s)), m. auto.
    + intros r K Kt Ke. rewrite ET in K. apply in_app_iff in K.
      destruct K as [K|[K|[K|[]]]]; try discriminate.
      exfalso. destruct (N5 r K Kt Ke) as (l' & x & F1 & F2 & F3). rewrite F1 in NE.
      apply Forall_app in NE. destruct NE as [_ NE]. inversion NE; congruence.
  - eapply upNum_keep; eauto.
    + intros r [K|[]]. discriminate.
    + rewrite E3. discriminate.
  - congruence.
  - destruct E2; congruence.
  - destruct E2 as [E2|[E2|E2]]; congruence.
  - rewrite E1 in N4. eapply upNum_keep; eauto.
    + destruct HE as [-> | ->]; reflexivity.
    + intros r K Kt Ke. destruct HE as [-> | ->]; [destruct K|]. destruct K as [K|[]]. injection K as <-.
      apply N4. exact Ke.
    + rewrite E3. exact I.
Qed.

Lemma inv6_run : forall cp os, inv6 (run cp os init).
Proof.
  intros cp os. apply (run_snoc_ind (fun os => inv6 (run cp os init))).
  - intros p j Hp. destruct p; discriminate.
  - intros l o IH. rewrite run_snoc. apply inv6_step; auto; [apply inv_run|apply tagged_run].
Qed.

(** ** Downloads *)

(** the i-th part a download function sends. *)
Definition downForm (rq : msg) (l : list msg) : Prop :=
  forall i m, nth_error l i = Some m -> exists body last, m = downMsg rq (Z.of_nat i) body last.

Definition inv7 (s : st) : Prop :=
  forall p j, nth_error (sJobs s) p = Some j ->
    downForm (jReq j) (downs p (tr p s)) /\
    match jPh j with
    | JSpawn | JRun _ => up s = true -> jNext j = Z.of_nat (length (downs p (tr p s)))
    | _ => True
    end.

Lemma up_step : forall cp o s, up (step cp o s) = true -> up s = true.
Proof.
  intros cp o s H. destruct (jobOp o) eqn:EO.
  - destruct o; try discriminate EO; clear EO; cbn [step] in H;
    unfold srvRead, jobStart, jobErrClose, jobUpPart, jobUpCanc, jobBiRecv, jobDown, jobEnd, jobReply,
      jobClean, jobDeadline, push, crash, respondErr, sWrite, regFlight, cancelCall, srvUp in H;
    destruct (up s) eqn:E; auto; exfalso; revert H; cbn; dm; cbn; congruence.
  - destruct (same2_step cp o s EO) as [_ [E|E] _ _ _ _]; congruence.
Qed.

Lemma downs_app : forall p a b, downs p (a ++ b) = downs p a ++ downs p b.
Proof. intros. apply flat_map_app. Qed.

Lemma inv7_step : forall cp o s, inv2 s -> inv7 s -> inv7 (step cp o s).
Proof.
  intros cp o s H2 HI p j' Hp'.
  pose proof (up_step cp o s) as HUp.
  pose proof (jtq_step cp o s p) as HJ. unfold jtq in HJ. rewrite Hp' in HJ.
  destruct (nth_error (sJobs s) p) as [j|] eqn:Hp.
  2:{ destruct HJ as (HPh & HN & ET). pose proof (v_tr s H2 p) as K. rewrite Hp in K.
      rewrite K in ET. rewrite ET. cbn. split; [intros i m X; destruct i; discriminate|].
      destruct HPh as [-> | ->]; auto. }
  destruct HJ as (ER & evs & HJ & ET). destruct (HI p j Hp) as [HD HL].
  assert (downs p evs = [] -> downs p (tr p (step cp o s)) = downs p (tr p s)) as HE0.
  { intros E. rewrite ET, downs_app, E, app_nil_r. reflexivity. }
  rewrite ER.
  destruct HJ as [E1 EN|E1 E2 E3 EN|E1 E2 E3|evs E1 E3 HE|E3|n c q m t E1 E2 ES EC C1 C2 C3 CE E3 EN
                 |n c q m t b e E1 E2 ES EC C1 C2 C3 CE E3|n E1 E2 E3|n c q m t E1 E2 ES EC E3 EN|n body last evs E1 E2 E3 EN HE
                 |n b e E1 E2 E3 EN|b e evs E1 E3 HE EN].
  - rewrite HE0 by reflexivity. split; [exact HD|]. rewrite E1, EN.
    destruct (jPh j); auto.
  - rewrite HE0 by reflexivity. split; [exact HD|]. rewrite E3, EN. rewrite E1 in HL. auto.
  - rewrite HE0 by reflexivity. split; [exact HD|]. rewrite E3. exact I.
  - rewrite HE0 by (destruct HE as [-> | ->]; reflexivity). split; [exact HD|]. rewrite E3. exact I.
  - rewrite HE0 by reflexivity. split; [exact HD|]. rewrite E3. exact I.
  - (* a part *)
    rewrite HE0 by reflexivity. split; [exact HD|]. rewrite E3. rewrite E1 in HL.
    rewrite EN. auto.
  - rewrite HE0 by reflexivity. split; [exact HD|]. rewrite E3. exact I.
  - rewrite HE0 by reflexivity. split; [exact HD|]. rewrite E3. exact I.
  - rewrite HE0 by reflexivity. split; [exact HD|]. rewrite E3, EN. rewrite E1 in HL. auto.
  - rewrite E3, EN. rewrite E1 in HL. destruct HE as [[EU ->]|[EU ->]].
    + specialize (HL EU). rewrite ET, downs_app. cbn. rewrite Nat.eqb_refl. split.
      * intros i m K. apply nth_app1 in K. destruct K as [K|[-> <-]]; [auto|].
        exists body, last. rewrite HL. reflexivity.
      * intros _. rewrite app_length. cbn. lia.
    + rewrite HE0 by reflexivity. split; [exact HD|]. intros K. apply HUp in K. congruence.
  - rewrite HE0 by reflexivity. split; [exact HD|]. rewrite E3. exact I.
  - rewrite HE0 by (destruct HE as [-> | ->]; reflexivity). split; [exact HD|]. rewrite E3. exact I.
Qed.

Lemma inv7_run : forall cp os, inv7 (run cp os init).
Proof.
  intros cp os. apply (run_snoc_ind (fun os => inv7 (run cp os init))).
  - intros p j Hp. destruct p; discriminate.
  - intros l o IH. rewrite run_snoc. apply inv7_step; auto. apply inv_run.
Qed.
