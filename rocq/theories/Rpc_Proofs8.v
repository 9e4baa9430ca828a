(** * Proofs about calls and streams: panics, and the read loop that waits for ever *)

From Coq Require Import ZArith NArith List Bool Lia PeanoNat.
From Verif Require Import Rpc_Model Rpc_Proofs Rpc_Proofs2 Rpc_Proofs3 Rpc_Proofs4 Rpc_Proofs5 Rpc_Proofs6
  Rpc_Proofs7.
Import ListNotations.
Local Open Scope Z_scope.

(** ** When the server does not panic *)

Definition orderly (s : st) : Prop :=
  forall p m, nth_error (map fst (sent s)) p = Some m -> mTyp m = TUpBegin ->
    noCancel (mCall m) s /\ numbered (T s p (mCall m)).

Lemma orderly_ext : forall s s' l, map fst (sent s') = map fst (sent s) ++ l -> orderly s' -> orderly s.
Proof.
  intros s s' l E H p m Hp HT.
  assert (nth_error (map fst (sent s')) p = Some m) as Hp' by (rewrite E; apply nth_app_l; exact Hp).
  destruct (H p m Hp' HT) as [H1 H2]. split; [eapply noCancel_ext; eassumption|].
  intros i x K. apply H2. rewrite (T_ext s s' p _ l E).
  - apply nth_app_l. exact K.
  - apply nth_some_lt in Hp. rewrite map_length in Hp. lia.
Qed.

Lemma crash_step : forall cp o s, sCrash s = false -> sCrash (step cp o s) = true ->
  exists p b e j n c q m t, o = OUpPart p b e /\ nth_error (sJobs s) p = Some j /\ jPh j = JRun n /\
    mTyp (jReq j) = TUpBegin /\ jStrm j = Some c /\ nth_error (sChan s) c = Some ((q, m) :: t) /\
    ~ ((n = 0%nat -> q = p) /\ mPart m = Z.of_nat n /\ ((0 < n)%nat -> mCall m = mCall (jReq j))).
Proof.
  intros cp o s H0 H1. destruct (jobOp o) eqn:EO.
  2:{ assert (o <> OSrvPart \/ o = OSrvPart) as [NE| ->]
        by (destruct o; (left; discriminate) || (right; reflexivity)).
      - destruct (srv_cliOp cp o s EO NE) as (_ & _ & _ & E & _). congruence.
      - exfalso. revert H1. cbn. unfold srvPart. dm; cbn; congruence. }
  destruct o; try discriminate EO; clear EO; cbn [step] in H1;
  try (exfalso; revert H1;
       unfold srvRead, jobStart, jobErrClose, jobUpCanc, jobBiRecv, jobDown, jobEnd, jobReply,
         jobClean, jobDeadline, push, respondErr, sWrite, regFlight, cancelCall; dm; cbn; congruence).
  unfold jobUpPart in H1. rewrite H0 in H1.
  destruct (nth_error (sJobs s) p) as [j|] eqn:Ej; [|congruence].
  destruct (jPh j) eqn:Ep; try congruence.
  destruct (mTyp (jReq j)) eqn:ET; try congruence.
  destruct (jStrm j) as [c|] eqn:ES; [|congruence].
  destruct (nth_error (sChan s) c) as [[|[q m] t]|] eqn:EC; try congruence.
  exists p, body, err, j, n, c, q, m, t.
  split; [reflexivity|]. split; [exact Ej|]. split; [exact Ep|]. split; [exact ET|].
  split; [exact ES|]. split; [exact EC|]. intros (D1 & D2 & D3).
  destruct (Nat.eqb n 0 && negb (Nat.eqb q p)) eqn:C1.
  { apply andb_true_iff in C1. destruct C1 as [C1 C1']. apply Nat.eqb_eq in C1. rewrite (D1 C1), Nat.eqb_refl in C1'. discriminate. }
  rewrite D2, Z.eqb_refl in H1. cbn [negb] in H1.
  destruct (Nat.ltb 0 n && negb (mCall m =? mCall (jReq j))) eqn:C3.
  { apply andb_true_iff in C3. destruct C3 as [C3 C3']. apply Nat.ltb_lt in C3. rewrite (D3 C3), Z.eqb_refl in C3'. discriminate. }
  destruct (negb (err =? 0)); [cbn in H1; congruence|].
  destruct (isEnd (mTyp m)); cbn in H1; congruence.
Qed.

Lemma no_crash : forall cp os, distinctIds (run cp os init) -> orderly (run cp os init) ->
  sCrash (run cp os init) = false.
Proof.
  intros cp os. apply (run_snoc_ind (fun os => distinctIds (run cp os init) -> orderly (run cp os init) ->
    sCrash (run cp os init) = false)).
  - reflexivity.
  - intros l o IH HD HO. rewrite run_snoc in *. set (s := run cp l init) in *.
    pose proof (distinct_step _ _ _ HD) as HD0.
    assert (exists l0, map fst (sent (step cp o s)) = map fst (sent s) ++ l0) as (l0 & EX)
      by (destruct (sent_mono cp o s) as (x & ->); rewrite map_app; eauto).
    pose proof (orderly_ext s _ l0 EX HO) as HO0.
    specialize (IH HD0 HO0).
    destruct (sCrash (step cp o s)) eqn:EC; [|reflexivity]. exfalso.
    destruct (crash_step cp o s IH EC) as (p & b & e & j & n & c & q & m & t & -> & Hp & HR & HT & HS & HC & HN).
    pose proof (inv_run cp l) as [_ H2 _].
    pose proof (jobs_sent s p j H2 Hp) as HJs.
    destruct (HO0 p (jReq j) HJs HT) as [HNC HNum].
    assert (Uok s p j) as [HU _].
    { apply (inv5_run cp l HD0); auto. rewrite HT. reflexivity. }
    destruct HU as (c' & q' & HU); [rewrite HR; exact I|exact IH|].
    destruct HU as [U1 U2 U3 U4 U5 U6].
    assert (c' = c) as -> by congruence. rewrite HC in U3. injection U3 as <-.
    pose proof (inv6_run cp l p j Hp HT) as [_ _ _ NP _]. fold s in NP. rewrite HR in NP. destruct NP as [NL _].
    rewrite <- gives_tr in NL. cbn in U5.
    assert (nth_error (T s p (mCall (jReq j))) n = Some m) as HM.
    { rewrite <- U5, nth_error_app2 by lia. rewrite NL, Nat.sub_diag. reflexivity. }
    apply HN. split; [|split].
    + intros ->. destruct (gives p (hist s)); [|discriminate]. destruct (U6 eq_refl) as (t' & K). congruence.
    + apply HNum. exact HM.
    + intros _. apply nth_error_In in HM. unfold T, parts in HM. apply filter_In in HM. destruct HM as [_ HM].
      unfold partOf in HM. apply andb_true_iff in HM. destruct HM as [_ HM]. apply Z.eqb_eq in HM. exact HM.
Qed.

(** ** A read loop that waits for ever *)

Record wedged (cp : caps) (s : st) (c : nat) : Prop := mkWedged {
  w_blk : exists e, sBlk s = Some (Some c, e);
  w_full : exists q, nth_error (sChan s) c = Some q /\ (capStrm cp <= length q)%nat;
  w_dead : forall p j, nth_error (sJobs s) p = Some j -> jStrm j = Some c -> ~ active (jPh j) }.

Lemma wedged_keep : forall cp s s' c, wedged cp s c -> sBlk s' = sBlk s ->
  (nth_error (sChan s') c = nth_error (sChan s) c) ->
  (forall p j', nth_error (sJobs s') p = Some j' -> jStrm j' = Some c -> active (jPh j') ->
     exists j, nth_error (sJobs s) p = Some j /\ jStrm j = Some c /\ active (jPh j)) ->
  wedged cp s' c.
Proof.
  intros cp s s' c [H1 H2 H3] E1 E2 E3. constructor.
  - rewrite E1. exact H1.
  - rewrite E2. exact H2.
  - intros p j' K1 K2 K3. destruct (E3 p j' K1 K2 K3) as (j & L1 & L2 & L3). exact (H3 p j L1 L2 L3).
Qed.

Lemma wedged_upd : forall cp s s' c p f, wedged cp s c -> sBlk s' = sBlk s ->
  (nth_error (sChan s') c = nth_error (sChan s) c) -> sJobs s' = upd p f (sJobs s) ->
  (forall j, nth_error (sJobs s) p = Some j -> active (jPh (f j)) -> jStrm (f j) = Some c -> active (jPh j) /\ jStrm j = Some c) ->
  wedged cp s' c.
Proof.
  intros cp s s' c p f HW E1 E2 E3 HF. apply (wedged_keep cp s); auto.
  intros q j' K1 K2 K3. rewrite E3, nth_upd in K1. destruct (Nat.eqb_spec p q) as [->|NE]; [|eauto].
  destruct (nth_error (sJobs s) q) as [j|] eqn:Ej; [|discriminate]. injection K1 as <-.
  destruct (HF j eq_refl K3 K2). exists j. auto.
Qed.

Lemma wedged_flight : forall cp s p m cn c, wedged cp s c -> wedged cp (regFlight p m cn s) c.
Proof.
  intros cp s p m cn c HW. pose proof HW as [(e & B) (q & C & _) HD].
  assert ((c < length (sChan s))%nat) as L by (apply nth_some_lt in C; exact C).
  assert (wedged cp (setSFl (mset Z.eqb (mCall m) (mkCC cn (Some (length (sChan s)))) (sFl s))
            (setJ p (setStrm (Some (length (sChan s)))) (setSChan (sChan s ++ [[(p, m)]]) s))) c) as HG.
  { apply (wedged_upd cp s _ c p (setStrm (Some (length (sChan s))))); auto.
    - cbn. rewrite C. apply nth_app_l. exact C.
    - intros j _ _ K. cbn in K. injection K as K. lia. }
  unfold regFlight. destruct (mget Z.eqb (mCall m) (sFl s)).
  - apply (wedged_keep cp s); auto. cbn. eauto.
  - destruct (mTyp m); try exact HG; apply (wedged_keep cp s); auto; cbn; eauto.
Qed.

Lemma wedged_cancel : forall cp s x c, wedged cp s c -> wedged cp (cancelCall x s) c.
Proof.
  intros cp s x c HW. unfold cancelCall. destruct (mget Z.eqb x (sFl s)) as [cc|]; [|exact HW].
  destruct (ccCanc cc) as [p|].
  - apply (wedged_upd cp s _ c p (setCanc true)); auto.
  - apply (wedged_keep cp s); auto. cbn. eauto.
Qed.

Lemma wedged_step : forall cp o s c, wedged cp s c ->
  wedged cp (step cp o s) c /\ length (sJobs (step cp o s)) = length (sJobs s).
Proof.
  intros cp o s c HW. pose proof HW as [(e & B) (q & C & CL) HD].
  destruct (jobOp o) eqn:EO.
  2:{ assert (o <> OSrvPart \/ o = OSrvPart) as [NE| ->]
        by (destruct o; (left; discriminate) || (right; reflexivity)).
      - destruct (srv_cliOp cp o s EO NE) as (_ & E2 & E3 & _ & E5). split; [|congruence].
        apply (wedged_keep cp s); auto; [congruence|]. rewrite E5. eauto.
      - cbn. unfold srvPart. rewrite B, C. destruct (srvUp s); [|auto].
        destruct (Nat.ltb_spec (length q) (capStrm cp)); [lia|]. auto. }
  destruct o; try discriminate EO; clear EO; cbn [step].
  - unfold srvRead. rewrite B. destruct (srvUp s); auto.
  - (* OStart *)
    unfold jobStart. destruct (sCrash s); [auto|].
    destruct (nth_error (sJobs s) p) as [j|] eqn:Ej; [|auto].
    destruct (jPh j) eqn:Ep; auto.
    assert (wedged cp (respondErr p (jReq j) s) c /\ length (sJobs (respondErr p (jReq j) s)) = length (sJobs s)) as HE.
    { unfold respondErr, sWrite. destruct (up s); (split; [apply (wedged_upd cp s _ c p (setJPh JErr)); auto|]);
      cbn; try apply length_upd; intros; contradiction. }
    assert (forall k,
      wedged cp (if isReg k (mSvc (jReq j)) s
            then log (ERun p (jReq j)) (setJ p (setJPh (JRun 0)) (regFlight p (jReq j) (Some p) s))
            else respondErr p (jReq j) s) c /\
      length (sJobs (if isReg k (mSvc (jReq j)) s
            then log (ERun p (jReq j)) (setJ p (setJPh (JRun 0)) (regFlight p (jReq j) (Some p) s))
            else respondErr p (jReq j) s)) = length (sJobs s)) as HG.
    { intros k. destruct (isReg k (mSvc (jReq j)) s); [|exact HE]. split.
      - pose proof (wedged_flight cp s p (jReq j) (Some p) c HW) as HF.
        apply (wedged_upd cp (regFlight p (jReq j) (Some p) s) _ c p (setJPh (JRun 0))); auto.
        intros j1 K _ K2. cbn in K2. split; [|exact K2].
        destruct (soft_flight p (jReq j) (Some p) s) as (S1 & _). specialize (S1 p). rewrite Ej, K in S1.
        destruct S1 as [_ S1]. rewrite S1, Ep. exact I.
      - cbn. rewrite length_upd. unfold regFlight.
        destruct (mget Z.eqb (mCall (jReq j)) (sFl s)); [reflexivity|].
        destruct (mTyp (jReq j)); cbn; rewrite ?length_upd; reflexivity. }
    assert (wedged cp (setJ p (setJPh JOver) s) c /\ length (sJobs (setJ p (setJPh JOver) s)) = length (sJobs s)) as HO.
    { split; [|cbn; apply length_upd]. apply (wedged_upd cp s _ c p (setJPh JOver)); auto; cbn; intros; contradiction. }
    destruct (mTyp (jReq j)) eqn:ET; try apply HG; try exact HO.
    + destruct (isReg R1 (mSvc (jReq j)) s); [|exact HE].
      split; [|cbn; apply length_upd]. apply (wedged_upd cp s _ c p (setJPh JOver)); auto; cbn; intros; contradiction.
    + pose proof (wedged_cancel cp s (mCall (jReq j)) c HW) as HC. split.
      * apply (wedged_upd cp (cancelCall (mCall (jReq j)) s) _ c p (setJPh JOver)); auto; cbn; intros; contradiction.
      * cbn. rewrite length_upd. unfold cancelCall. destruct (mget Z.eqb (mCall (jReq j)) (sFl s)) as [cc|]; [|reflexivity].
        destruct (ccCanc cc); cbn; rewrite ?length_upd; reflexivity.
  - unfold jobErrClose. dm; auto; (split; [|cbn; apply length_upd]);
    eapply (wedged_upd cp s _ c p (setJPh JOver)); auto; cbn; intros; contradiction.
  - (* OUpPart *)
    unfold jobUpPart. destruct (sCrash s); [auto|].
    destruct (nth_error (sJobs s) p) as [j|] eqn:Ej; [|auto].
    destruct (jPh j) eqn:Ep; auto.
    destruct (mTyp (jReq j)) eqn:ET; auto.
    destruct (jStrm j) as [c'|] eqn:ES; [|auto].
    destruct (nth_error (sChan s) c') as [[|[q' m] t]|] eqn:EC; auto.
    assert (c' <> c) as NE.
    { intros ->. apply (HD p j Ej ES). rewrite Ep. exact I. }
    assert (nth_error (upd c' (@tl (nat * msg)) (sChan s)) c = nth_error (sChan s) c) as EN.
    { rewrite nth_upd. destruct (Nat.eqb_spec c' c); [contradiction|reflexivity]. }
    assert (forall f s', sBlk s' = sBlk s -> sChan s' = upd c' (@tl (nat * msg)) (sChan s) -> sJobs s' = upd p f (sJobs s) ->
       (forall j, jStrm (f j) = jStrm j) ->
       wedged cp s' c /\ length (sJobs s') = length (sJobs s)) as HG.
    { intros f s' F1 F2 F3 F4. split; [|rewrite F3; apply length_upd].
      apply (wedged_upd cp s _ c p f); auto; [rewrite F2; exact EN|].
      intros j1 K _ K2. rewrite Ej in K. injection K as <-. rewrite F4 in K2. congruence. }
    assert (wedged cp (crash (setSChan (upd c' (@tl (nat * msg)) (sChan s)) s)) c) as HC.
    { apply (wedged_keep cp s); auto. cbn. eauto. }
    dm; try (split; [exact HC|reflexivity]);
    (eapply HG; [reflexivity|reflexivity|reflexivity|reflexivity]).
  - unfold jobUpCanc. dm; auto; (split; [|cbn; apply length_upd]);
    eapply (wedged_upd cp s _ c p (setJPh (JRet 0 errCtx))); auto; cbn; intros; contradiction.
  - (* OBiRecv *)
    unfold jobBiRecv. destruct (sCrash s); [auto|].
    destruct (nth_error (sJobs s) p) as [j|] eqn:Ej; [|auto].
    destruct (jPh j) eqn:Ep; auto.
    destruct (mTyp (jReq j)) eqn:ET; auto.
    destruct (jStrm j) as [c'|] eqn:ES; [|auto].
    destruct (nth_error (sChan s) c') as [[|[q' m] t]|] eqn:EC; auto.
    assert (c' <> c) as NE.
    { intros ->. apply (HD p j Ej ES). rewrite Ep. exact I. }
    split; [|reflexivity]. apply (wedged_keep cp s); auto; cbn; [|eauto].
    rewrite nth_upd. destruct (Nat.eqb_spec c' c); [contradiction|reflexivity].
  - unfold jobDown, sWrite. dm; auto; (split; [|cbn; apply length_upd]);
    eapply (wedged_upd cp s _ c p); auto; try reflexivity; cbn; auto.
  - unfold jobEnd. dm; auto; (split; [|cbn; apply length_upd]);
    eapply (wedged_upd cp s _ c p); auto; try reflexivity; cbn; intros; contradiction.
  - unfold jobReply, sWrite. dm; auto; (split; [|cbn; apply length_upd]);
    eapply (wedged_upd cp s _ c p); auto; try reflexivity; cbn; intros; contradiction.
  - unfold jobClean. destruct (sCrash s); [auto|].
    destruct (nth_error (sJobs s) p) as [j|] eqn:Ej; [|auto].
    destruct (jPh j) eqn:Ep; auto.
    pose proof (wedged_cancel cp s (mCall (jReq j)) c HW) as HC. split.
    + apply (wedged_upd cp (cancelCall (mCall (jReq j)) s) _ c p (setJPh JOver)); auto; cbn; intros; contradiction.
    + cbn. rewrite length_upd. unfold cancelCall. destruct (mget Z.eqb (mCall (jReq j)) (sFl s)) as [cc|]; [|reflexivity].
      destruct (ccCanc cc); cbn; rewrite ?length_upd; reflexivity.
  - unfold jobDeadline. dm; auto; (split; [|cbn; apply length_upd]);
    eapply (wedged_upd cp s _ c p (setCanc true)); auto.
  - unfold push, sWrite. dm; auto; (split; [|reflexivity]); apply (wedged_keep cp s); auto; cbn; eauto.
Qed.

Lemma wedged_for_ever : forall cp os s c, wedged cp s c ->
  length (sJobs (run cp os s)) = length (sJobs s).
Proof.
  induction os as [|o r IH]; intros s c H; cbn; [reflexivity|].
  destruct (wedged_step cp o s c H) as [H1 H2]. rewrite (IH _ c H1). exact H2.
Qed.

(** ** It can come to that *)

(** an upload of which k more parts wait in the stream channel. *)
Record filling (s : st) (k : nat) (ph : jphase) : Prop := mkFill {
  fi_up : up s = true; fi_cr : sCrash s = false; fi_blk : sBlk s = None; fi_w : wireC s = [];
  fi_strm : exists n, cStrm s = [mkStrm KUp 7 1 1 n false None];
  fi_fl : exists cn, sFl s = [(7, mkCC cn (Some 0%nat))];
  fi_chan : exists q, sChan s = [q] /\ length q = k /\ (ph = JRun 0 -> exists m t, q = (0%nat, m) :: t /\ mPart m = 0 /\ mTyp m = TUpBegin);
  fi_jobs : exists j r, sJobs s = j :: r /\ jPh j = ph /\ mTyp (jReq j) = TUpBegin /\ mCall (jReq j) = 7 /\
     jStrm j = Some 0%nat /\ Forall (fun x => jStrm x = None) r }.

Definition more : list op := [OUpMore 0 0 false true; OSrvRead; OSrvPart].

(** a part is written and read. *)
Lemma fill_read : forall cp s k ph, filling s k ph -> exists m s',
  run cp [OUpMore 0 0 false true; OSrvRead] s = s' /\
  sBlk s' = Some (Some 0%nat, (length (sJobs s), m)) /\
  up s' = true /\ sCrash s' = false /\ wireC s' = [] /\
  (exists n, cStrm s' = [mkStrm KUp 7 1 1 n false None]) /\
  sFl s' = sFl s /\ sChan s' = sChan s /\ sJobs s' = sJobs s ++ [mkJob m JPart false None 0].
Proof.
  intros cp s k ph [U CR BL W (n & ST) (cn & FL) _ _].
  set (m := mkMsg TUpMore 1 7 1 n 0 0 false).
  set (s1 := setWireC [m] (setSent (sent s ++ [(m, ByStrm 0)])
               (setCStrm [mkStrm KUp 7 1 1 (n + 1) false None] s))).
  assert (step cp (OUpMore 0 0 false true) s = s1) as E1.
  { cbn [step]. unfold upMore. rewrite ST. cbn [nth_error sKind sDone sSeq sCall sSvc sNext upd].
    unfold cWrite. cbn [up setCStrm]. rewrite U. cbn [andb wireC setCStrm setSent]. rewrite W. reflexivity. }
  set (s2 := setSBlk (Some (Some 0%nat, (length (sJobs s), m)))
               (setSJobs (sJobs s ++ [mkJob m JPart false None 0]) (setWireC [] s1))).
  assert (step cp OSrvRead s1 = s2) as E2.
  { cbn [step]. unfold srvRead.
    assert (srvUp s1 = true) as -> by (unfold srvUp, s1; cbn; rewrite U, CR; reflexivity).
    change (sBlk s1) with (sBlk s). rewrite BL. change (wireC s1) with [m]. cbv iota beta zeta.
    change (mTyp m) with TUpMore. cbv iota. cbn [sFl setSJobs setWireC]. change (sFl s1) with (sFl s). rewrite FL.
    change (mCall m) with 7. cbn [mget Z.eqb Pos.eqb]. reflexivity. }
  exists m, s2. split; [cbn [run]; rewrite E1, E2; reflexivity|].
  split; [reflexivity|]. split; [exact U|]. split; [exact CR|]. split; [reflexivity|].
  split; [exists (n + 1); reflexivity|]. split; [reflexivity|]. split; reflexivity.
Qed.

Lemma fill_one : forall cp s k ph, filling s k ph -> (k < capStrm cp)%nat ->
  filling (run cp more s) (S k) ph.
Proof.
  intros cp s k ph HF L. destruct (fill_read cp s k ph HF) as (m & s2 & E & B2 & U2 & C2 & W2 & ST2 & F2 & CH2 & J2).
  destruct HF as [U CR BL W _ (cn & FL) (q & CH & QL & QH) (j & r & JB & JP & JT & JC & JS & JR)].
  unfold more. change [OUpMore 0 0 false true; OSrvRead; OSrvPart] with ([OUpMore 0 0 false true; OSrvRead] ++ [OSrvPart]).
  rewrite run_app, E. cbn [run step].
  set (s3 := setSBlk None (setSChan [q ++ [(length (sJobs s), m)]] s2)).
  assert (srvPart cp s2 = s3) as ->.
  { unfold srvPart. assert (srvUp s2 = true) as -> by (unfold srvUp; rewrite U2, C2; reflexivity).
    rewrite B2, CH2, CH. cbn [nth_error].
    assert (Nat.ltb (length q) (capStrm cp) = true) as -> by (apply Nat.ltb_lt; lia). reflexivity. }
  constructor.
  - exact U2.
  - exact C2.
  - reflexivity.
  - exact W2.
  - exact ST2.
  - exists cn. transitivity (sFl s2); [reflexivity|congruence].
  - eexists. split; [reflexivity|]. split; [rewrite app_length; cbn; lia|].
    intros K. destruct (QH K) as (m' & t & -> & K'). exists m'. eexists. split; [reflexivity|exact K'].
  - exists j, (r ++ [mkJob m JPart false None 0]). split; [transitivity (sJobs s2); [reflexivity|rewrite J2, JB; reflexivity]|].
    repeat split; auto.
    apply Forall_app. split; [exact JR|]. repeat constructor.
Qed.

Lemma fill_many : forall cp i s k ph, filling s k ph -> (k + i <= capStrm cp)%nat ->
  filling (run cp (concat (repeat more i)) s) (k + i) ph.
Proof.
  induction i as [|i IH]; intros s k ph H L.
  - cbn. rewrite Nat.add_0_r. exact H.
  - cbn [repeat concat]. rewrite run_app. replace (k + S i)%nat with (S k + i)%nat by lia.
    apply IH; [|lia]. apply fill_one; [exact H|lia].
Qed.

Definition beginUp : list op := [ORegister RUp 1; OUpBegin 7 1 0 true; OSrvRead; OStart 0].

Lemma fill_begin : forall cp, filling (run cp beginUp init) 1 (JRun 0).
Proof.
  intros cp. let x := eval vm_compute in (run cp beginUp init) in change (run cp beginUp init) with x.
  constructor; cbn; try reflexivity.
  - exists 1. reflexivity.
  - eauto.
  - eexists. split; [reflexivity|]. split; [reflexivity|]. intros _. eauto.
  - eexists. eexists. split; [reflexivity|]. cbn. auto 10.
Qed.

Lemma fill_fail : forall cp s k, filling s (S k) (JRun 0) -> 
  exists b, filling (step cp (OUpPart 0 0 5) s) k (JRet b 5).
Proof.
  intros cp s k [U CR BL W (n & ST) (cn & FL) (q & CH & QL & QH) (j & r & JB & JP & JT & JC & JS & JR)].
  destruct (QH eq_refl) as (m & t & -> & Q1 & Q2). exists 0.
  cbn [step]. unfold jobUpPart. rewrite CR, JB. cbn [nth_error]. rewrite JP, JT, JS, CH. cbn [nth_error].
  cbn [Nat.eqb negb andb Z.eqb Nat.ltb Nat.leb]. rewrite Q1, Q2. cbn [isEnd Z.of_nat Z.eqb negb].
  constructor; cbn; rewrite ?CH, ?JB; cbn; eauto.
  - exists t. cbn in QL. split; [reflexivity|]. split; [lia|]. discriminate.
  - exists (setJPh (JRet 0 5) j). exists r. auto 10.
Qed.

Definition wedgeScript (n : nat) : list op :=
  beginUp ++ concat (repeat more (n - 1)) ++ [OUpPart 0 0 5] ++ more ++
  [OUpMore 0 0 false true; OSrvRead] ++ [OReply 0] ++ [OClean 0].

Lemma run1 : forall cp o s, run cp [o] s = step cp o s.
Proof. reflexivity. Qed.

Lemma wedge_reached : forall cp s, (1 <= capStrm cp)%nat ->
  s = run cp (wedgeScript (capStrm cp)) init ->
  up s = true /\ sCrash s = false /\ wedged cp s 0 /\
  exists r, In (EAnswer 0 r) (hist s) /\ mErr r = 5.
Proof.
  intros cp s L ->. unfold wedgeScript. rewrite !run_app, !run1.
  pose proof (fill_begin cp) as F1. set (s1 := run cp beginUp init) in *.
  pose proof (fill_many cp (capStrm cp - 1) s1 1 _ F1 ltac:(lia)) as F2.
  replace (1 + (capStrm cp - 1))%nat with (S (capStrm cp - 1)) in F2 by lia.
  set (s2 := run cp _ s1) in *.
  destruct (fill_fail cp s2 _ F2) as (b & F3).
  set (s3 := step cp (OUpPart 0 0 5) s2) in *.
  pose proof (fill_one cp s3 _ _ F3 ltac:(lia)) as F4.
  replace (S (capStrm cp - 1)) with (capStrm cp) in F4 by lia.
  set (s4 := run cp more s3) in *. clearbody s4. clear - F4.
  destruct (fill_read cp s4 _ _ F4) as (m & s5 & E & B2 & H2 & H3 & W2 & ST2 & F2 & CH2 & J2). rewrite E.
  destruct F4 as [U CR BL W _ (cn & FL) (q & CH & QL & QH) (j & r & JB & JP & JT & JC & JS & JR)].
  assert (nth_error (sJobs s5) 0 = Some j) as H4 by (rewrite J2, JB; reflexivity).
  assert (wedged cp s5 0) as H1.
  { constructor; [eauto|exists q; rewrite CH2, CH; split; [reflexivity|lia]|]. intros p x K1 K2 K3.
    rewrite J2, JB in K1.
    destruct p as [|p]; cbn in K1; [injection K1 as <-; rewrite JP in K3; exact K3|].
    apply nth_app1 in K1. destruct K1 as [K1|[_ <-]]; [|discriminate].
    rewrite Forall_forall in JR. rewrite JR in K2; [discriminate|]. eapply nth_error_In. exact K1. }
  set (rp := mkMsg TReply (mSeq (jReq j)) (mCall (jReq j)) (mSvc (jReq j)) 0 b 5 (mDl (jReq j))).
  set (s6 := setJ 0 (setJPh JReplied) (log (EAnswer 0 rp) (setWireS (wireS s5 ++ [rp]) s5))).
  assert (step cp (OReply 0) s5 = s6) as E6.
  { cbn [step]. unfold jobReply, sWrite. rewrite H3, H4, JP. cbv iota beta zeta. rewrite H2. reflexivity. }
  destruct (wedged_step cp (OReply 0) s5 0 H1) as [W1 _]. rewrite E6 in *.
  destruct (wedged_step cp (OClean 0) s6 0 W1) as [W3 _].
  assert (forall x, up (step cp (OClean 0) x) = up x /\ sCrash (step cp (OClean 0) x) = sCrash x /\
                    hist (step cp (OClean 0) x) = hist x) as HC.
  { intros x. cbn [step]. unfold jobClean, cancelCall. dm; auto. }
  destruct (HC s6) as (M1 & M2 & M3). rewrite M1, M2, M3.
  split; [exact H2|split; [exact H3|split; [exact W3|]]].
  exists rp. split; [|reflexivity]. change (hist s6) with (hist s5 ++ [EAnswer 0 rp]).
  apply in_app_iff. right. left. reflexivity.
Qed.
