(** * Proofs about calls and streams: uploads *)

From Coq Require Import ZArith NArith List Bool Lia PeanoNat.
From Verif Require Import Rpc_Model Rpc_Proofs Rpc_Proofs2 Rpc_Proofs3 Rpc_Proofs4.
Import ListNotations.
Local Open Scope Z_scope.

(** the messages the function for p was given, in order. *)
Definition givesOf (p : nat) (e : event) : list msg :=
  match e with EPart q m _ => if Nat.eqb q p then [m] else [] | _ => [] end.
Definition gives (p : nat) (h : list event) : list msg := flat_map (givesOf p) h.

(** the stream messages with this CallID. *)
Definition partOf (c : Z) (m : msg) : bool := isPartT (mTyp m) && (mCall m =? c).
Definition parts (c : Z) (l : list msg) : list msg := filter (partOf c) l.

Definition T (s : st) (p : nat) (c : Z) : list msg := parts c (skipn p (map fst (sent s))).

Definition blk (c : Z) (s : st) : list msg :=
  match sBlk s with
  | Some (_, (_, m)) => if mCall m =? c then [m] else []
  | None => []
  end.

Definition noCancel (c : Z) (s : st) : Prop := ~ cancMsg s c.

Definition active (x : jphase) : Prop := match x with JSpawn | JRun _ => True | _ => False end.

Record uok (s : st) (p : nat) (j : job) (c : nat) (q : list (nat * msg)) : Prop := mkUok {
  u_strm : jStrm j = Some c;
  u_fl : exists cc, mget Z.eqb (mCall (jReq j)) (sFl s) = Some cc /\ ccStrm cc = Some c;
  u_chan : nth_error (sChan s) c = Some q;
  u_blk : forall oc e, sBlk s = Some (oc, e) -> mCall (snd e) = mCall (jReq j) -> oc = Some c;
  u_all : gives p (hist s) ++ map snd q ++ blk (mCall (jReq j)) s ++ parts (mCall (jReq j)) (wireC s)
          = T s p (mCall (jReq j));
  u_first : gives p (hist s) = [] -> exists t, q = (p, jReq j) :: t }.

Definition Uok (s : st) (p : nat) (j : job) : Prop :=
  (active (jPh j) -> sCrash s = false -> exists c q, uok s p j c q) /\
  exists rest, gives p (hist s) ++ rest = T s p (mCall (jReq j)).

Definition inv5 (s : st) : Prop :=
  forall p j, nth_error (sJobs s) p = Some j -> upl (mTyp (jReq j)) = true ->
    noCancel (mCall (jReq j)) s -> Uok s p j.

Lemma gives_app : forall p a b, gives p (a ++ b) = gives p a ++ gives p b.
Proof. intros. apply flat_map_app. Qed.

Lemma parts_app : forall c a b, parts c (a ++ b) = parts c a ++ parts c b.
Proof. intros. apply filter_app. Qed.

Lemma T_ext : forall s s' p c l, map fst (sent s') = map fst (sent s) ++ l ->
  (p <= length (sent s))%nat -> T s' p c = T s p c ++ parts c l.
Proof.
  intros s s' p c l E L. unfold T. rewrite E, skipn_app, map_length.
  replace (p - length (sent s))%nat with 0%nat by lia. cbn [skipn]. apply parts_app.
Qed.

Lemma noCancel_ext : forall s s' c l, map fst (sent s') = map fst (sent s) ++ l ->
  noCancel c s' -> noCancel c s.
Proof.
  intros s s' c l E H (m & K1 & K2 & K3). apply H. exists m. rewrite E.
  split; [apply in_app_iff; auto|auto].
Qed.

(** nothing is given, the job is not active afterwards. *)
Lemma U_idle : forall s s' p j j' l, Uok s p j -> jReq j' = jReq j ->
  map fst (sent s') = map fst (sent s) ++ l -> (p <= length (sent s))%nat ->
  gives p (hist s') = gives p (hist s) ->
  (active (jPh j') -> sCrash s' = false -> False) -> Uok s' p j'.
Proof.
  intros s s' p j j' l [H1 (rest & H2)] E1 E2 L E3 NA. split.
  - intros A C. destruct (NA A C).
  - exists (rest ++ parts (mCall (jReq j)) l). rewrite E1, E3, (T_ext s s' p _ l E2 L), app_assoc, H2.
    reflexivity.
Qed.

(** nothing is given, the messages only move. *)
Lemma U_move : forall s s' p j j' l, Uok s p j -> jReq j' = jReq j ->
  map fst (sent s') = map fst (sent s) ++ l -> (p <= length (sent s))%nat ->
  gives p (hist s') = gives p (hist s) ->
  (active (jPh j') -> sCrash s' = false -> active (jPh j) /\ sCrash s = false /\ jStrm j' = jStrm j /\
     forall c q, uok s p j c q ->
       (exists cc, mget Z.eqb (mCall (jReq j)) (sFl s') = Some cc /\ ccStrm cc = Some c) /\
       (forall oc e, sBlk s' = Some (oc, e) -> mCall (snd e) = mCall (jReq j) -> oc = Some c) /\
       exists t, nth_error (sChan s') c = Some (q ++ t) /\
         map snd t ++ blk (mCall (jReq j)) s' ++ parts (mCall (jReq j)) (wireC s') =
         blk (mCall (jReq j)) s ++ parts (mCall (jReq j)) (wireC s) ++ parts (mCall (jReq j)) l) ->
  Uok s' p j'.
Proof.
  intros s s' p j j' l [H1 (rest & H2)] E1 E2 L E3 HM. split.
  - intros A C. destruct (HM A C) as (A0 & C0 & ES & HK).
    destruct (H1 A0 C0) as (c & q & HU). destruct (HK c q HU) as (K1 & K2 & t & K3 & K4).
    exists c, (q ++ t). destruct HU as [U1 U2 U3 U4 U5 U6]. constructor.
    + congruence.
    + rewrite E1. exact K1.
    + exact K3.
    + rewrite E1. exact K2.
    + rewrite E1, E3, (T_ext s s' p _ l E2 L), <- U5, map_app, <- !app_assoc, K4. reflexivity.
    + rewrite E1, E3. intros K. destruct (U6 K) as [t' ->]. exists (t' ++ t). reflexivity.
  - exists (rest ++ parts (mCall (jReq j)) l). rewrite E1, E3, (T_ext s s' p _ l E2 L), app_assoc, H2.
    reflexivity.
Qed.

(** what U_move needs when the server's tables are as before. *)
Lemma U_same : forall s s' p j l, Uok s p j ->
  map fst (sent s') = map fst (sent s) ++ l -> wireC s' = wireC s ++ l -> (p <= length (sent s))%nat ->
  gives p (hist s') = gives p (hist s) -> srvEq s' s -> Uok s' p j.
Proof.
  intros s s' p j l H E1 E2 L E3 (F1 & F2 & F3 & F4 & F5).
  apply (U_move s s' p j j l); auto. intros A C. rewrite F4 in C. repeat split; auto.
  - rewrite F1. apply H0.
  - rewrite F3. apply (u_blk _ _ _ _ _ H0).
  - exists []. rewrite F2, app_nil_r. split; [apply (u_chan _ _ _ _ _ H0)|].
    unfold blk. rewrite F3, E2, parts_app. reflexivity.
Qed.

Lemma gives_same : forall cp o s p, jobOp o = false -> gives p (hist (step cp o s)) = gives p (hist s).
Proof.
  intros cp o s p H.
  assert (exists l, hist (step cp o s) = hist s ++ l /\ Forall (fun e => givesOf p e = []) l) as (l & E & F).
  { assert (forall x, hist x = hist s -> exists l, hist x = hist s ++ l /\ Forall (fun e => givesOf p e = []) l) as HN.
    { intros x E. exists []. rewrite app_nil_r. auto. }
    assert (forall x e, hist x = hist s ++ [e] -> givesOf p e = [] ->
              exists l, hist x = hist s ++ l /\ Forall (fun e => givesOf p e = []) l) as HL.
    { intros x e E1 E2. exists [e]. auto. }
    destruct o; try discriminate H; clear H; cbn [step];
    unfold callBegin, sendCall, callReturn, callTimeout, callCancel, sendCancel, callShut, oneWay,
      newStream, beginStream, upBegin, upReg, upMore, closeStream, listen, userRecv, ret, regChans, newChan,
      srvPart.
    all: try (unfold cWrite; dm; first [apply HN; reflexivity | eapply HL; reflexivity]; fail).
    apply HN. unfold cliRead. destruct (up s); [|reflexivity]. destruct (wireS s); [reflexivity|].
    destruct (wants m s); [destruct (room cp n s); reflexivity|].
    cbn. destruct (mget N.eqb (mSeq m) (cOnce s)); [reflexivity|].
    apply (tell_irr cp (cListen s) m (setWireS l s)). }
  rewrite E, gives_app. clear - F. induction F as [|e r F1 F2 IH]; cbn.
  - apply app_nil_r.
  - rewrite F1. exact IH.
Qed.

Lemma jobs_le : forall s p j, inv2 s -> nth_error (sJobs s) p = Some j -> (p < length (sent s))%nat.
Proof.
  intros s p j H2 H. pose proof (jobs_sent s p j H2 H) as K. apply nth_some_lt in K.
  rewrite map_length in K. exact K.
Qed.

Lemma skipn_len_app : forall {A} (l l' : list A), skipn (length l) (l ++ l') = l'.
Proof. intros. rewrite skipn_app, skipn_all, Nat.sub_diag. reflexivity. Qed.

Lemma upd_out : forall {A} (l : list A) p f, nth_error l p = None -> upd p f l = l.
Proof.
  induction l as [|x r IH]; intros [|p] f E; cbn in *; try discriminate; auto.
  f_equal. apply IH. exact E.
Qed.

Lemma gives_none : forall s p, inv2 s -> nth_error (sJobs s) p = None -> gives p (hist s) = [].
Proof.
  intros s p H2 E. pose proof (v_tr s H2 p) as HT. rewrite E in HT. unfold tr in HT.
  induction (hist s) as [|e r IH]; [reflexivity|]. cbn in *.
  destruct e; cbn in *; auto; destruct (Nat.eqb p0 p); try discriminate; auto.
Qed.

(** a job whose phase changes, the tables staying as they are. *)
Lemma U_phase : forall s s' p j j', Uok s p j -> (p <= length (sent s))%nat ->
  jReq j' = jReq j -> jStrm j' = jStrm j -> (active (jPh j') -> active (jPh j)) ->
  map fst (sent s') = map fst (sent s) -> wireC s' = wireC s ->
  gives p (hist s') = gives p (hist s) ->
  sFl s' = sFl s -> sChan s' = sChan s -> sBlk s' = sBlk s ->
  (sCrash s' = false -> sCrash s = false) -> Uok s' p j'.
Proof.
  intros s s' p j j' H L E1 E2 HA E3 E4 E5 E6 E7 E8 E9.
  apply (U_move s s' p j j' []); auto.
  { rewrite app_nil_r. exact E3. }
  intros A C. split; [auto|split; [auto|split; [auto|]]]. intros c q HU. split; [|split].
  - rewrite E6. apply HU.
  - rewrite E8. apply (u_blk _ _ _ _ _ HU).
  - exists []. rewrite E7, app_nil_r. split; [apply (u_chan _ _ _ _ _ HU)|].
    unfold blk. rewrite E8, E4. cbn. rewrite app_nil_r. reflexivity.
Qed.

(** one job step at p0 that touches no table. *)
Lemma inv5_phase : forall s s' p0 f l, inv2 s -> inv5 s ->
  sJobs s' = upd p0 f (sJobs s) -> (forall j, jReq (f j) = jReq j /\ jStrm (f j) = jStrm j) ->
  (forall j, nth_error (sJobs s) p0 = Some j -> active (jPh (f j)) -> active (jPh j)) ->
  map fst (sent s') = map fst (sent s) -> wireC s' = wireC s ->
  hist s' = hist s ++ l -> Forall (fun e => forall p, givesOf p e = []) l ->
  sFl s' = sFl s -> sChan s' = sChan s -> sBlk s' = sBlk s ->
  (sCrash s' = false -> sCrash s = false) -> inv5 s'.
Proof.
  intros s s' p0 f l H2 HI E1 HF HA E3 E4 E5 E5' E6 E7 E8 E9 p j' Hp HUp HNC.
  assert (gives p (hist s') = gives p (hist s)) as EG.
  { rewrite E5, gives_app. clear - E5'. induction E5' as [|e r F1 F2 IH]; cbn; [apply app_nil_r|].
    rewrite F1. exact IH. }
  assert (exists j, nth_error (sJobs s) p = Some j /\ jReq j' = jReq j /\ jStrm j' = jStrm j /\
            (active (jPh j') -> active (jPh j))) as (j & K1 & K2 & K3 & K4).
  { rewrite E1, nth_upd in Hp. destruct (Nat.eqb_spec p0 p) as [->|NE].
    - destruct (nth_error (sJobs s) p) as [j|] eqn:Ej; [|discriminate]. injection Hp as <-.
      exists j. destruct (HF j). auto.
    - exists j'. auto. }
  apply (U_phase s s' p j j'); auto.
  - apply HI; [exact K1| |].
    + rewrite <- K2. exact HUp.
    + rewrite <- K2. apply (noCancel_ext s s' _ []); [rewrite app_nil_r; exact E3|exact HNC].
  - pose proof (jobs_le s p j H2 K1). lia.
Qed.

Lemma inv5_flight : forall s p0 j0 canc, inv2 s -> inv4 s -> inv5 s ->
  uniqR (map jReq (sJobs s)) ->
  nth_error (sJobs s) p0 = Some j0 -> opens (mTyp (jReq j0)) = true -> jPh j0 = JSpawn ->
  sCrash s = false -> inv5 (regFlight p0 (jReq j0) canc s).
Proof.
  intros s p0 j0 canc H2 H4 HI HU Hp0 HO HSp HCr p j' Hp HUp HNC.
  destruct (Nat.eq_dec p p0) as [->|NE].
  - (* the job itself *)
    assert (upl (mTyp (jReq j0)) = true /\ noCancel (mCall (jReq j0)) s) as [HUp0 HNC0].
    { destruct (soft_flight p0 (jReq j0) canc s) as (S1 & _ & _ & S4 & _). specialize (S1 p0).
      rewrite Hp0, Hp in S1. destruct S1 as [S1 _]. rewrite S1 in *. split; [exact HUp|].
      apply (noCancel_ext s _ _ []) in HNC; [exact HNC|]. rewrite app_nil_r, S4. reflexivity. }
    pose proof (HI p0 j0 Hp0 HUp0 HNC0) as U0.
    destruct U0 as [U1 U2]. destruct U1 as (c & q & HU1); [rewrite HSp; exact I|exact HCr|].
    pose proof HU1 as [A1 (cc & A2 & A2') A3 A4 A5 A6].
    unfold regFlight in *. rewrite A2 in *. cbn in Hp. rewrite Hp0 in Hp. injection Hp as <-.
    apply (U_move s _ p0 j0 j0 []); auto.
    + cbn. rewrite app_nil_r. reflexivity.
    + pose proof (jobs_le s p0 j0 H2 Hp0). lia.
    + intros A C. split; [auto|split; [auto|split; [reflexivity|]]]. intros c' q' HU'.
      assert (c' = c) as -> by (pose proof (u_strm _ _ _ _ _ HU'); congruence).
      cbn. rewrite mget_mset_Z, Z.eqb_refl. split; [|split].
      * eexists. split; [reflexivity|exact A2'].
      * exact A4.
      * exists []. rewrite app_nil_r. split; [apply HU'|]. cbn. rewrite app_nil_r. reflexivity.
  - (* the others *)
    assert (exists j, nth_error (sJobs s) p = Some j /\ j' = j) as (j & Hj & ->).
    { exists j'. split; [|reflexivity]. unfold regFlight in Hp.
      destruct (mget Z.eqb (mCall (jReq j0)) (sFl s)); [exact Hp|].
      destruct (mTyp (jReq j0)); cbn in Hp; try exact Hp;
      (rewrite nth_upd in Hp; destruct (Nat.eqb_spec p0 p); [congruence|exact Hp]). }
    destruct (soft_flight p0 (jReq j0) canc s) as (_ & _ & S3 & S4 & S5 & _).
    assert (noCancel (mCall (jReq j)) s) as HNC0.
    { apply (noCancel_ext s _ _ []) in HNC; [exact HNC|]. rewrite app_nil_r, S4. reflexivity. }
    apply (U_move s _ p j j []); auto.
    + rewrite S4, app_nil_r. reflexivity.
    + pose proof (jobs_le s p j H2 Hj). lia.
    + rewrite S3. reflexivity.
    + intros A C. split; [auto|split; [exact HCr|split; [reflexivity|]]]. intros c q HUk.
      assert (mCall (jReq j0) <> mCall (jReq j)) as NC.
      { intros E. apply NE. apply (uniqJ s p p0 j j0); auto.
        destruct (mTyp (jReq j)); try discriminate; reflexivity. }
      assert (mget Z.eqb (mCall (jReq j)) (sFl (regFlight p0 (jReq j0) canc s)) =
              mget Z.eqb (mCall (jReq j)) (sFl s)) as EF.
      { unfold regFlight. destruct (mget Z.eqb (mCall (jReq j0)) (sFl s)); [|destruct (mTyp (jReq j0))];
        cbn; rewrite mget_mset_Z; destruct (Z.eqb_spec (mCall (jReq j0)) (mCall (jReq j))); try contradiction; reflexivity. }
      assert (sBlk (regFlight p0 (jReq j0) canc s) = sBlk s) as EB.
      { unfold regFlight. destruct (mget Z.eqb (mCall (jReq j0)) (sFl s)); [|destruct (mTyp (jReq j0))]; reflexivity. }
      split; [|split].
      * rewrite EF. apply HUk.
      * rewrite EB. apply (u_blk _ _ _ _ _ HUk).
      * exists []. rewrite app_nil_r. split.
        -- pose proof (u_chan _ _ _ _ _ HUk) as K. unfold regFlight.
           destruct (mget Z.eqb (mCall (jReq j0)) (sFl s)); [exact K|].
           destruct (mTyp (jReq j0)); cbn; try exact K; apply nth_app_l; exact K.
        -- unfold blk. rewrite EB, S5. cbn. rewrite app_nil_r. reflexivity.
Qed.

Lemma inv5_cancel : forall s c, inv2 s -> inv5 s -> uniqR (map jReq (sJobs s)) ->
  cancMsg s c \/
  (exists p j, nth_error (sJobs s) p = Some j /\ opens (mTyp (jReq j)) = true /\
     mCall (jReq j) = c /\ jPh j = JReplied) ->
  inv5 (cancelCall c s).
Proof.
  intros s c H2 HI HU HR p j' Hp HUp HNC.
  destruct (soft_cancel c s) as (S1 & _ & S3 & S4 & S5 & _).
  specialize (S1 p). rewrite Hp in S1.
  destruct (nth_error (sJobs s) p) as [j|] eqn:Hj; [|destruct S1]. destruct S1 as [S1 S1'].
  assert (noCancel (mCall (jReq j)) s) as HNC0.
  { rewrite S1 in HNC. apply (noCancel_ext s _ _ []) in HNC; [exact HNC|]. rewrite app_nil_r, S4. reflexivity. }
  rewrite S1 in HUp.
  assert (jStrm j' = jStrm j) as ES.
  { unfold cancelCall in Hp. destruct (mget Z.eqb c (sFl s)) as [cc|]; [|congruence].
    destruct (ccCanc cc) as [q|]; cbn in Hp; [|congruence]. rewrite nth_upd, Hj in Hp.
    destruct (Nat.eqb q p); injection Hp as <-; reflexivity. }
  assert (sChan (cancelCall c s) = sChan s /\ sBlk (cancelCall c s) = sBlk s /\ sCrash (cancelCall c s) = sCrash s) as (E1 & E2 & E3).
  { unfold cancelCall. destruct (mget Z.eqb c (sFl s)) as [cc|]; [|auto]. destruct (ccCanc cc); auto. }
  apply (U_move s _ p j j' []); auto.
  - rewrite S4, app_nil_r. reflexivity.
  - pose proof (jobs_le s p j H2 Hj). lia.
  - rewrite S3. reflexivity.
  - intros A C. rewrite S1' in A. rewrite E3 in C. split; [exact A|split; [exact C|split; [exact ES|]]].
    intros c' q HUk.
    assert (c <> mCall (jReq j)) as NC.
    { intros ->. destruct HR as [HR|(q' & y & M1 & M2 & M3 & M4)]; [exact (HNC0 HR)|].
      assert (p = q') as <-.
      { apply (uniqJ s p q' j y); auto. destruct (mTyp (jReq j)); try discriminate; reflexivity. }
      rewrite Hj in M1. injection M1 as <-. rewrite M4 in A. exact A. }
    split; [|split].
    + assert (mget Z.eqb (mCall (jReq j)) (sFl (cancelCall c s)) = mget Z.eqb (mCall (jReq j)) (sFl s)) as ->.
      { unfold cancelCall. destruct (mget Z.eqb c (sFl s)) as [cc|]; [|reflexivity].
        cbn. rewrite mget_mdel_Z. destruct (Z.eqb_spec c (mCall (jReq j))); [contradiction|reflexivity]. }
      apply HUk.
    + rewrite E2. apply (u_blk _ _ _ _ _ HUk).
    + exists []. rewrite app_nil_r, E1. split; [apply HUk|].
      unfold blk. rewrite E2, S5. cbn. rewrite app_nil_r. reflexivity.
Qed.

(** the job p0 takes the first message of its channel. *)
Lemma inv5_take : forall s s' p0 j0 c0 q0 m0 t0 f b l, inv2 s -> inv4 s -> inv5 s ->
  nth_error (sJobs s) p0 = Some j0 -> (exists n, jPh j0 = JRun n) ->
  jStrm j0 = Some c0 -> nth_error (sChan s) c0 = Some ((q0, m0) :: t0) ->
  sCrash s = false ->
  sJobs s' = upd p0 f (sJobs s) -> (forall j, jReq (f j) = jReq j /\ jStrm (f j) = jStrm j) ->
  sent s' = sent s -> wireC s' = wireC s ->
  hist s' = hist s ++ EPart p0 m0 b :: l -> Forall (fun e => forall p, givesOf p e = []) l ->
  sFl s' = sFl s -> sChan s' = upd c0 (@tl (nat * msg)) (sChan s) -> sBlk s' = sBlk s ->
  inv5 s'.
Proof.
  intros s s' p0 j0 c0 q0 m0 t0 f b l H2 H4 HI Hp0 [n0 HR] HSt HCh HCr E1 HF E3 E4 E5 E5' E6 E7 E8.
  intros p j' Hp HUp HNC.
  assert (gives p (hist s') = gives p (hist s) ++ if Nat.eqb p0 p then [m0] else []) as EG.
  { rewrite E5, gives_app. f_equal. cbn. rewrite <- app_nil_r. f_equal.
    clear - E5'. induction E5' as [|e r F1 F2 IH]; cbn; [reflexivity|]. rewrite F1. exact IH. }
  assert (exists j, nth_error (sJobs s) p = Some j /\ jReq j' = jReq j /\ jStrm j' = jStrm j /\
            (p <> p0 -> j' = j)) as (j & K1 & K2 & K3 & K4).
  { rewrite E1, nth_upd in Hp. destruct (Nat.eqb_spec p0 p) as [->|NE].
    - destruct (nth_error (sJobs s) p) as [j|] eqn:Ej; [|discriminate]. injection Hp as <-.
      exists j. destruct (HF j). repeat split; auto. congruence.
    - exists j'. auto. }
  assert (Uok s p j) as U0.
  { apply HI; [exact K1|congruence|]. rewrite <- K2.
    apply (noCancel_ext s s' _ []); [rewrite E3, app_nil_r; reflexivity|exact HNC]. }
  assert (forall x, T s' p x = T s p x) as ET by (intros; unfold T; rewrite E3; reflexivity).
  assert (forall x, blk x s' = blk x s) as EB by (intros; unfold blk; rewrite E8; reflexivity).
  destruct (Nat.eqb_spec p0 p) as [<-|NE].
  - rewrite Hp0 in K1. injection K1 as <-.
    destruct U0 as [U1 _]. destruct U1 as (c & q & [A1 A2 A3 A4 A5 A6]); [rewrite HR; exact I|exact HCr|].
    assert (c = c0) as -> by congruence. rewrite HCh in A3. injection A3 as <-.
    cbn in A5. split.
    + intros _ _. exists c0, t0. constructor.
      * congruence.
      * rewrite K2, E6. exact A2.
      * rewrite E7, nth_upd, Nat.eqb_refl, HCh. reflexivity.
      * rewrite E8, K2. exact A4.
      * rewrite K2, EG, EB, E4, ET, <- A5, <- app_assoc. reflexivity.
      * rewrite EG. intros K. destruct (gives p0 (hist s)); discriminate.
    + exists (map snd t0 ++ blk (mCall (jReq j0)) s ++ parts (mCall (jReq j0)) (wireC s)).
      rewrite K2, EG, ET, <- A5, <- app_assoc. reflexivity.
  - rewrite app_nil_r in EG. rewrite K4 in * by congruence.
    apply (U_move s s' p j j []); auto.
    + rewrite E3, app_nil_r. reflexivity.
    + pose proof (jobs_le s p j H2 K1). lia.
    + intros A C. split; [exact A|split; [exact HCr|split; [reflexivity|]]].
      intros c q HUk. split; [|split].
      * rewrite E6. apply HUk.
      * rewrite E8. apply (u_blk _ _ _ _ _ HUk).
      * exists []. rewrite app_nil_r, E7, nth_upd.
        destruct (Nat.eqb_spec c0 c) as [<-|NC].
        -- exfalso. apply NE. apply (f_inj s H4 p0 p j0 j c0); auto. apply HUk.
        -- split; [apply HUk|]. rewrite EB, E4. cbn. rewrite app_nil_r. reflexivity.
Qed.

Lemma inv5_step : forall cp o s, inv2 s -> distinctIds (step cp o s) -> inv4 s -> inv5 s -> inv5 (step cp o s).
Proof.
  intros cp o s H2 HD H4 HI.
  pose proof (distinct_step cp o s HD) as HD0.
  pose proof (distinct_jobs s H2 HD0) as HU.
  destruct (jobOp o) eqn:EO.
  2:{ destruct (same2_step cp o s EO) as [E1 _ _ (l & E4 & E5) _ _].
      assert (o <> OSrvPart \/ o = OSrvPart) as [NE| ->]
        by (destruct o; (left; discriminate) || (right; reflexivity)).
      - intros p j Hp HUp HNC.
        pose proof (srv_cliOp cp o s EO NE) as SE.
        rewrite E1 in Hp.
        apply (U_same s _ p j l); auto.
        + apply HI; auto. eapply noCancel_ext; eassumption.
        + pose proof (jobs_le s p j H2 Hp). lia.
        + apply gives_same. exact EO.
      - cbn [step] in *. unfold srvPart in *. destruct (srvUp s) eqn:EU; [|exact HI].
        destruct (sBlk s) as [[[c|] [q0 m0]]|] eqn:EB; try exact HI.
        destruct (nth_error (sChan s) c) as [q|] eqn:EQ; [|exact HI].
        destruct (Nat.ltb (length q) (capStrm cp)); [|exact HI].
        intros p j Hp HUp HNC. cbn in Hp.
        assert (Uok s p j) as U0 by (apply HI; auto).
        apply (U_move s _ p j j []); auto.
        + cbn. rewrite app_nil_r. reflexivity.
        + pose proof (jobs_le s p j H2 Hp). lia.
        + cbn. intros A C. repeat split; auto.
          * apply H.
          * discriminate.
          * rewrite app_nil_r, nth_upd.
            destruct (f_blk s H4 _ _ _ EB) as [FT FB]. destruct (FB c eq_refl) as [FL FB'].
            pose proof (u_chan _ _ _ _ _ H) as UC.
            destruct (Z.eq_dec (mCall m0) (mCall (jReq j))) as [EC|NC].
            -- pose proof (u_blk _ _ _ _ _ H _ _ EB EC) as K. injection K as <-.
               exists [(q0, m0)]. rewrite Nat.eqb_refl, UC. split; [reflexivity|].
               unfold blk. rewrite EB. cbn. rewrite EC, Z.eqb_refl. reflexivity.
            -- destruct (Nat.eqb_spec c c0) as [<-|NE2].
               ++ exfalso. apply NC. symmetry. apply (FB' p j Hp). apply H.
               ++ exists []. rewrite app_nil_r. split; [exact UC|]. unfold blk. rewrite EB. cbn.
                  destruct (Z.eqb_spec (mCall m0) (mCall (jReq j))); [contradiction|]. reflexivity. }
  assert (H2' : inv2 (step cp o s)) by (apply inv2_step; exact H2).
  pose proof (distinct_jobs _ H2' HD) as HU'. clear HD.
  destruct o; try discriminate EO; clear EO; cbn [step] in *.
  - (* OSrvRead *)
    unfold srvRead in *. destruct (srvUp s) eqn:ESU; [|exact HI].
    assert (sCrash s = false) as HCr.
    { unfold srvUp in ESU. apply andb_true_iff in ESU. destruct ESU as [_ K]. destruct (sCrash s); [discriminate|reflexivity]. }
    destruct (sBlk s) eqn:EB; [exact HI|]. destruct (wireC s) as [|m r] eqn:EW; [exact HI|].
    (* the jobs that were there *)
    assert (forall s' p j, Uok s p j -> nth_error (sJobs s) p = Some j ->
       sent s' = sent s -> hist s' = hist s -> sCrash s' = false -> wireC s' = r ->
       (active (jPh j) -> forall c q, uok s p j c q ->
         mget Z.eqb (mCall (jReq j)) (sFl s') = mget Z.eqb (mCall (jReq j)) (sFl s) /\
         nth_error (sChan s') c = nth_error (sChan s) c /\
         (sBlk s' = None /\ (isPartT (mTyp m) = true -> mCall m <> mCall (jReq j)) \/
          isPartT (mTyp m) = true /\
          exists oc, sBlk s' = Some (oc, (length (sJobs s), m)) /\ (mCall m = mCall (jReq j) -> oc = Some c))) ->
       Uok s' p j) as HOld.
    { intros s' p j U0 Hp E1 E2 E3 E4 HK. apply (U_move s s' p j j []); auto.
      - rewrite E1, app_nil_r. reflexivity.
      - pose proof (jobs_le s p j H2 Hp). lia.
      - rewrite E2. reflexivity.
      - intros A C. split; [exact A|split; [exact HCr|split; [reflexivity|]]]. intros c q HUk.
        destruct (HK A c q HUk) as (K1 & K2 & K3). rewrite K1, K2. split; [apply HUk|].
        unfold blk at 2. rewrite EB. cbn [app]. rewrite E4, EW, app_nil_r.
        destruct K3 as [[K3 K4]|(KP & oc & K3 & K4)]; unfold blk; rewrite K3.
        + split; [discriminate|]. exists []. rewrite app_nil_r. split; [apply HUk|].
          cbn [map app]. unfold parts at 2. cbn [filter]. unfold partOf.
          destruct (isPartT (mTyp m)) eqn:EP; [|reflexivity]. cbn [andb].
          destruct (Z.eqb_spec (mCall m) (mCall (jReq j))); [|reflexivity]. exfalso. exact (K4 eq_refl e).
        + split.
          * intros oc' e K5 K6. injection K5 as <- <-. apply K4. exact K6.
          * exists []. rewrite app_nil_r. split; [apply HUk|].
            cbn [map app]. unfold parts at 2. cbn [filter]. unfold partOf. rewrite KP. cbn [andb].
            destruct (Z.eqb_spec (mCall m) (mCall (jReq j))); reflexivity. }
    assert (forall p j, nth_error (sJobs s) p = Some j -> upl (mTyp (jReq j)) = true -> opens (mTyp (jReq j)) = true) as UO.
    { intros p j _ K. destruct (mTyp (jReq j)); try discriminate; reflexivity. }
    (* plain messages *)
    assert (isPartT (mTyp m) = false ->
      inv5 (setSJobs (sJobs s ++ [mkJob m JSpawn false None 0]) (setWireC r s))) as HPl.
    { intros NP p j Hp HUp HNC. cbn in Hp. apply nth_app1 in Hp. destruct Hp as [Hp|[-> <-]].
      - apply (HOld _ p j); auto. cbn. intros A c q HUk. repeat split. left. split; [exact EB|]. congruence.
      - cbn in HUp. destruct (mTyp m); discriminate. }
    (* parts *)
    assert (mTyp m = TUpMore \/ mTyp m = TUpEnd ->
      inv5 (match mget Z.eqb (mCall m) (sFl s) with
            | None => setSJobs (sJobs s ++ [mkJob m JPart false None 0]) (setWireC r s)
            | Some cc => setSBlk (Some (ccStrm cc, (length (sJobs s), m)))
                           (setSJobs (sJobs s ++ [mkJob m JPart false None 0]) (setWireC r s))
            end)) as HPa.
    { intros HT p j Hp HUp HNC.
      assert (isPartT (mTyp m) = true) as HPT by (destruct HT as [-> | ->]; reflexivity).
      assert (nth_error (sJobs s ++ [mkJob m JPart false None 0]) p = Some j) as Hp'.
      { destruct (mget Z.eqb (mCall m) (sFl s)); exact Hp. }
      apply nth_app1 in Hp'. destruct Hp' as [Hp'|[-> <-]].
      2:{ cbn in HUp. destruct HT as [-> | ->] in HUp; discriminate. }
      assert (Uok s p j) as U0.
      { apply HI; auto. destruct (mget Z.eqb (mCall m) (sFl s)); exact HNC. }
      destruct (mget Z.eqb (mCall m) (sFl s)) as [cc|] eqn:EC.
      - apply (HOld _ p j); auto. cbn. intros A c q HUk. split; [reflexivity|split; [reflexivity|]].
        right. split; [exact HPT|]. exists (ccStrm cc). split; [reflexivity|]. intros E.
        destruct (u_fl _ _ _ _ _ HUk) as (cc' & K1 & K2). rewrite <- E, EC in K1. injection K1 as <-. exact K2.
      - apply (HOld _ p j); auto. cbn. intros A c q HUk. split; [reflexivity|split; [reflexivity|]].
        left. split; [exact EB|]. intros _ E.
        destruct (u_fl _ _ _ _ _ HUk) as (cc' & K1 & K2). rewrite <- E, EC in K1. discriminate. }
    (* beginnings *)
    assert (upl (mTyp m) = true -> uniqR (map jReq (sJobs s ++ [mkJob m JSpawn false None 0])) ->
      inv5 (regFlight (length (sJobs s)) m None
              (setSJobs (sJobs s ++ [mkJob m JSpawn false None 0]) (setWireC r s)))) as HBe.
    { intros HUpm HN.
      assert (nth_error (sJobs s ++ [mkJob m JSpawn false None 0]) (length (sJobs s)) =
              Some (mkJob m JSpawn false None 0)) as HL by (apply nth_app1; auto).
      assert (opens (mTyp m) = true) as HOm by (destruct (mTyp m); try discriminate; reflexivity).
      assert (isPartT (mTyp m) = true) as HPm by (destruct (mTyp m); try discriminate; reflexivity).
      assert (forall q x, nth_error (sJobs s) q = Some x -> opens (mTyp (jReq x)) = true -> mCall (jReq x) <> mCall m) as HNE.
      { intros q x L1 L2 L3. assert (q = length (sJobs s)) as ->.
        { apply (HN q (length (sJobs s)) (jReq x) m); auto.
          - rewrite nth_error_map, (nth_app_l _ _ _ _ L1). reflexivity.
          - rewrite nth_error_map, HL. reflexivity. }
        apply nth_some_lt in L1. lia. }
      assert (mget Z.eqb (mCall m) (sFl s) = None) as EC.
      { destruct (mget Z.eqb (mCall m) (sFl s)) as [cc|] eqn:EC; [|reflexivity].
        destruct (f_fl s H4 _ _ EC) as (q & x & L1 & L2 & L3 & _). exfalso. eapply HNE; eassumption. }
      set (s1 := setSFl (mset Z.eqb (mCall m) (mkCC None (Some (length (sChan s)))) (sFl s))
           (setJ (length (sJobs s)) (setStrm (Some (length (sChan s))))
             (setSChan (sChan s ++ [[(length (sJobs s), m)]])
               (setSJobs (sJobs s ++ [mkJob m JSpawn false None 0]) (setWireC r s))))).
      assert (regFlight (length (sJobs s)) m None
              (setSJobs (sJobs s ++ [mkJob m JSpawn false None 0]) (setWireC r s)) = s1) as ->.
      { unfold regFlight. cbn [sFl setSJobs setWireC]. rewrite EC.
        destruct (mTyp m); try discriminate; reflexivity. }
      intros p j Hp HUp HNC. cbn in Hp. rewrite nth_upd in Hp.
      destruct (Nat.eqb_spec (length (sJobs s)) p) as [<-|NE].
      - rewrite HL in Hp. injection Hp as <-. split.
        + intros _ _. exists (length (sChan s)), [(length (sJobs s), m)]. constructor.
          * reflexivity.
          * exists (mkCC None (Some (length (sChan s)))). cbn. rewrite mget_mset_Z, Z.eqb_refl. auto.
          * cbn. apply nth_app1. auto.
          * cbn. rewrite EB. discriminate.
          * cbn [jReq setStrm map snd app]. change (hist s1) with (hist s).
            change (wireC s1) with r. unfold T. change (sent s1) with (sent s). unfold blk.
            change (sBlk s1) with (sBlk s). rewrite EB.
            rewrite (gives_none s); [|exact H2|apply nth_error_None; lia].
            rewrite (v_fifo s H2), EW.
            replace (length (sJobs s)) with (length (map jReq (sJobs s))) by apply map_length.
            rewrite skipn_len_app. unfold parts. cbn. unfold partOf at 2. rewrite HPm, Z.eqb_refl. reflexivity.
          * intros _. exists []. reflexivity.
        + exists (T s1 (length (sJobs s)) (mCall m)). change (hist s1) with (hist s).
          rewrite (gives_none s); [reflexivity|exact H2|apply nth_error_None; lia].
      - apply nth_app1 in Hp. destruct Hp as [Hp|[K _]]; [|congruence].
        apply (HOld s1 p j); auto.
        cbn. intros A c q HUk.
        assert (mCall (jReq j) <> mCall m) as NC by (eapply HNE; eauto).
        rewrite mget_mset_Z. destruct (Z.eqb_spec (mCall m) (mCall (jReq j))); [congruence|].
        split; [reflexivity|split].
        + pose proof (u_chan _ _ _ _ _ HUk) as K. rewrite K. apply nth_app_l. exact K.
        + left. split; [exact EB|]. congruence. }
    destruct (mTyp m) eqn:ET; try (apply HPl; reflexivity); try (apply HPa; auto; fail);
    (apply HBe; [reflexivity|]; rewrite flight_jReq in HU'; exact HU').
  - (* OStart *)
    unfold jobStart in *. destruct (sCrash s) eqn:HCr; [exact HI|].
    destruct (nth_error (sJobs s) p) as [j|] eqn:Ej; [|exact HI].
    destruct (jPh j) eqn:Ep; try exact HI.
    assert (inv5 (respondErr p (jReq j) s)) as HE.
    { unfold respondErr, sWrite. cbv zeta. destruct (up s).
      - eapply (inv5_phase s _ p (setJPh JErr) [_]); eauto; try reflexivity; cbn; try (intros; contradiction); auto.
      - eapply (inv5_phase s _ p (setJPh JErr) []); eauto; try reflexivity; cbn; try (intros; contradiction); auto.
        rewrite app_nil_r. reflexivity. }
    assert (forall k, opens (mTyp (jReq j)) = true ->
      inv5 (if isReg k (mSvc (jReq j)) s
            then log (ERun p (jReq j)) (setJ p (setJPh (JRun 0)) (regFlight p (jReq j) (Some p) s))
            else respondErr p (jReq j) s)) as HG.
    { intros k HO'. destruct (isReg k (mSvc (jReq j)) s); [|exact HE].
      assert (inv2 (regFlight p (jReq j) (Some p) s)) as H2f by (eapply soft_inv; [exact H2|apply soft_flight]).
      pose proof (inv5_flight s p j (Some p) H2 H4 HI HU Ej HO' Ep HCr) as HF.
      destruct (soft_flight p (jReq j) (Some p) s) as (S1 & _).
      specialize (S1 p). rewrite Ej in S1.
      destruct (nth_error (sJobs (regFlight p (jReq j) (Some p) s)) p) as [j'|] eqn:Ej'; [|destruct S1].
      destruct S1 as [S1 S2].
      eapply (inv5_phase (regFlight p (jReq j) (Some p) s) _ p (setJPh (JRun 0)) [ERun p (jReq j)]);
        eauto; try reflexivity; cbn; try (intros; contradiction); auto.
      intros x K _. rewrite Ej' in K. injection K as <-. rewrite S2, Ep. exact I. }
    destruct (mTyp (jReq j)) eqn:ET; try (apply HG; reflexivity);
    try (eapply (inv5_phase s _ p (setJPh JOver) []); eauto; try reflexivity; cbn; try (intros; contradiction); auto;
         rewrite app_nil_r; reflexivity).
    + destruct (isReg R1 (mSvc (jReq j)) s); [|exact HE].
      eapply (inv5_phase s _ p (setJPh JOver) [ERun p (jReq j)]); eauto; try reflexivity; cbn; try (intros; contradiction); auto.
    + assert (inv5 (cancelCall (mCall (jReq j)) s)) as HC.
      { apply inv5_cancel; auto. left. exists (jReq j). split; [|auto].
        apply (nth_error_In _ p). apply jobs_sent; assumption. }
      assert (inv2 (cancelCall (mCall (jReq j)) s)) as H2c by (eapply soft_inv; [exact H2|apply soft_cancel]).
      eapply (inv5_phase (cancelCall (mCall (jReq j)) s) _ p (setJPh JOver) []); eauto; try reflexivity; cbn; try (intros; contradiction); auto.
      rewrite app_nil_r. reflexivity.
  - (* OErrClose *)
    unfold jobErrClose. destruct (sCrash s); [exact HI|].
    destruct (nth_error (sJobs s) p) as [j|] eqn:Ej; [|exact HI].
    destruct (jPh j) eqn:Ep; try exact HI.
    eapply (inv5_phase s _ p (setJPh JOver) []); eauto; try reflexivity; cbn; try (intros; contradiction); auto.
    rewrite app_nil_r. reflexivity.
  - (* OUpPart *)
    unfold jobUpPart. destruct (sCrash s) eqn:HCr; [exact HI|].
    destruct (nth_error (sJobs s) p) as [j|] eqn:Ej; [|exact HI].
    destruct (jPh j) eqn:Ep; try exact HI.
    destruct (mTyp (jReq j)) eqn:ET; try exact HI.
    destruct (jStrm j) as [c|] eqn:ES; [|exact HI].
    destruct (nth_error (sChan s) c) as [[|[q m] t]|] eqn:EC; try exact HI.
    set (s1 := setSChan _ s).
    assert (inv5 (crash s1)) as HC.
    { intros x y Hx Hy HN. apply (U_idle s _ x y y []); auto.
      - cbn. rewrite app_nil_r. reflexivity.
      - cbn in Hx. pose proof (jobs_le s x y H2 Hx). lia.
      - cbn. discriminate. }
    destruct (Nat.eqb n 0 && negb (Nat.eqb q p)); [exact HC|].
    destruct (negb (mPart m =? Z.of_nat n)); [exact HC|].
    destruct (Nat.ltb 0 n && negb (mCall m =? mCall (jReq j))); [exact HC|].
    assert (forall b e, inv5 (setJ p (setJPh (JRet b e))
              (log (EClean p) (log (EPart p m (isEnd (mTyp m))) s1)))) as HR.
    { intros b e. eapply (inv5_take s _ p j c q m t (setJPh (JRet b e)) _ [EClean p]); eauto; try reflexivity; cbn; try (intros; contradiction); auto.
      rewrite <- app_assoc. reflexivity. }
    destruct (negb (err =? 0)); [apply HR|]. destruct (isEnd (mTyp m)) eqn:EE; [apply HR|].
    eapply (inv5_take s _ p j c q m t (setJPh (JRun (S n))) _ []); eauto; try reflexivity; cbn; try (intros; contradiction); auto.
  - (* OUpCanc *)
    unfold jobUpCanc. destruct (sCrash s); [exact HI|].
    destruct (nth_error (sJobs s) p) as [j|] eqn:Ej; [|exact HI].
    destruct (jPh j) eqn:Ep; try exact HI.
    destruct (mTyp (jReq j)) eqn:ET; try exact HI.
    destruct (jCanc j); [|exact HI].
    eapply (inv5_phase s _ p (setJPh (JRet 0 errCtx)) [EClean p]); eauto; try reflexivity; cbn; try (intros; contradiction); auto.
  - (* OBiRecv *)
    unfold jobBiRecv. destruct (sCrash s) eqn:HCr; [exact HI|].
    destruct (nth_error (sJobs s) p) as [j|] eqn:Ej; [|exact HI].
    destruct (jPh j) eqn:Ep; try exact HI.
    destruct (mTyp (jReq j)) eqn:ET; try exact HI.
    destruct (jStrm j) as [c|] eqn:ES; [|exact HI].
    destruct (nth_error (sChan s) c) as [[|[q m] t]|] eqn:EC; try exact HI.
    eapply (inv5_take s _ p j c q m t (fun x => x) _ []); eauto; try reflexivity; cbn; try (intros; contradiction); auto.
    clear. generalize (sJobs s) as l. intros l. revert p.
    induction l as [|x r IH]; intros [|p]; cbn; auto. f_equal. apply IH.
  - (* ODown *)
    unfold jobDown. destruct (sCrash s); [exact HI|].
    destruct (nth_error (sJobs s) p) as [j|] eqn:Ej; [|exact HI].
    cbv zeta. set (m := mkMsg _ _ _ _ _ _ _ _).
    assert (inv5 (setJ p (setJNext (jNext j + 1)) (sWrite m (EDown p m) s))) as HG.
    { unfold sWrite. destruct (up s).
      - eapply (inv5_phase s _ p (setJNext (jNext j + 1)) [EDown p m]); eauto; try reflexivity; cbn; try (intros; contradiction); auto.
      - eapply (inv5_phase s _ p (setJNext (jNext j + 1)) []); eauto; try reflexivity; cbn; try (intros; contradiction); auto.
        rewrite app_nil_r. reflexivity. }
    destruct (jPh j); try exact HI. destruct (mTyp (jReq j)); try exact HI; exact HG.
  - (* OEnd *)
    unfold jobEnd. destruct (sCrash s); [exact HI|].
    destruct (nth_error (sJobs s) p) as [j|] eqn:Ej; [|exact HI].
    assert (inv5 (log (EEnd p body err) (setJ p (setJPh (JRet body err)) s))) as HG.
    { eapply (inv5_phase s _ p (setJPh (JRet body err)) [EEnd p body err]); eauto; try reflexivity; cbn; try (intros; contradiction); auto. }
    destruct (jPh j); try exact HI. destruct (mTyp (jReq j)); try exact HI; exact HG.
  - (* OReply *)
    unfold jobReply. destruct (sCrash s); [exact HI|].
    destruct (nth_error (sJobs s) p) as [j|] eqn:Ej; [|exact HI].
    destruct (jPh j) eqn:Ep; try exact HI. cbv zeta. unfold sWrite. destruct (up s).
    + eapply (inv5_phase s _ p (setJPh JReplied) [_]); eauto; try reflexivity; cbn; try (intros; contradiction); auto.
    + eapply (inv5_phase s _ p (setJPh JReplied) []); eauto; try reflexivity; cbn; try (intros; contradiction); auto.
      rewrite app_nil_r. reflexivity.
  - (* OClean *)
    unfold jobClean. destruct (sCrash s); [exact HI|].
    destruct (nth_error (sJobs s) p) as [j|] eqn:Ej; [|exact HI].
    destruct (jPh j) eqn:Ep; try exact HI.
    assert (inv5 (cancelCall (mCall (jReq j)) s)) as HC.
    { apply inv5_cancel; auto. right. exists p, j. split; [exact Ej|split; [|auto]].
      exact (skel_rep_opens s p j H2 Ej Ep). }
    assert (inv2 (cancelCall (mCall (jReq j)) s)) as H2c by (eapply soft_inv; [exact H2|apply soft_cancel]).
    eapply (inv5_phase (cancelCall (mCall (jReq j)) s) _ p (setJPh JOver) []); eauto; try reflexivity; cbn; try (intros; contradiction); auto.
    rewrite app_nil_r. reflexivity.
  - (* ODeadline *)
    unfold jobDeadline. destruct (sCrash s); [exact HI|].
    destruct (nth_error (sJobs s) p) as [j|] eqn:Ej; [|exact HI].
    destruct (jPh j) eqn:Ep; try exact HI. destruct (mDl (jReq j)) eqn:ED; [|exact HI].
    eapply (inv5_phase s _ p (setCanc true) []); eauto; try reflexivity; cbn; try (intros; contradiction); auto.
    rewrite app_nil_r. reflexivity.
  - (* OPush *)
    unfold push. destruct (sCrash s) eqn:HCr; [exact HI|]. cbv zeta. unfold sWrite.
    destruct (up s); [|exact HI].
    eapply (inv5_phase s _ 0%nat (fun x => x) [_]); eauto; try reflexivity; cbn; try (intros; contradiction); auto.
    clear. destruct (sJobs s); reflexivity.
Qed.

Lemma inv5_run : forall cp os, distinctIds (run cp os init) -> inv5 (run cp os init).
Proof.
  intros cp os. apply (run_snoc_ind (fun os => distinctIds (run cp os init) -> inv5 (run cp os init))).
  - intros _ p j Hp. cbn in Hp. destruct p; discriminate.
  - intros l o IH HD. rewrite run_snoc in *. pose proof (distinct_step _ _ _ HD) as HD0.
    apply inv5_step; auto.
    + apply inv_run.
    + apply inv4_run. exact HD0.
Qed.
