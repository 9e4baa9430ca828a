(** The events in which a process takes a new view. *)
From Coq Require Import List ZArith Bool Arith Lia.
Import ListNotations.
From Verif Require Import Czar_Model Czar_Spec Czar_Proofs Czar_Step Czar_Events Czar_Members.
Local Open Scope Z_scope.

Section Views.
Variable drift : Z.
Hypothesis drift0 : 0 <= drift.
Notation Inv := (Inv drift).
Notation step := (step drift).
Notation Goal := (Goal drift).

Lemma one_up w i v l o : o = [] \/ (o = [OUp i v l] /\ true = true) \/ o = [OUp i v l] ->
  (forall t e j, ~ In (t, OEpoch e j) (stamped w o)) /\
  (forall v' l', shown (stamped w o) v' l' -> v' = v /\ l' = l) /\
  (forall t j v' l', In (t, OUp j v' l') (stamped w o) -> j = i) /\
  (forall t q p v' l', ~ In (t, OAns q p v' l') (stamped w o)).
Proof.
  intro D. assert (X : forall t x, In (t, x) (stamped w o) -> x = OUp i v l).
  { intros t x J. unfold stamped in J. destruct D as [-> |[[-> _]| ->]]; [destruct J|destruct J as [J|[]]; congruence|destruct J as [J|[]]; congruence]. }
  refine (conj _ (conj _ (conj _ _))).
  - intros t e j J. apply X in J. discriminate.
  - intros v' l' [t [[p J]|[q [p J]]]]; apply X in J; [|discriminate]. injection J as -> -> ->. auto.
  - intros t j v' l' J. apply X in J. congruence.
  - intros t q p v' l' J. apply X in J. discriminate.
Qed.

Lemma keyVers_le e u old : vEpoch old <= e -> vle old (keyVers e u old).
Proof. intro L. unfold vle, keyVers. cbn. destruct (Z.eqb_spec e (vEpoch old)); lia. Qed.

Lemma ev_reply w used H i d : Inv w used H -> Goal w H (step w (EReply i d)).
Proof.
  intro IV. cbn [Czar_Model.step]. destruct (wProcs w i) as [P|] eqn:E; [|apply (Goal_same _ _ used); assumption].
  pose proof (iv_proc _ _ _ _ IV _ _ E) as PO. pose proof (iv_hist _ _ _ _ IV) as HO.
  pose proof (ho_now _ HO) as N1. cbn in N1. pose proof (later_pos d) as D0.
  destruct (cWait P) as [|n l|n|n b] eqn:W; try (apply (Goal_same _ _ used); assumption);
    destruct (pick n (wRes w)) as [r|] eqn:EK; try (apply (Goal_same _ _ used); assumption);
    apply pick_In in EK; pose proof (iv_res _ _ _ _ IV _ _ EK) as (R1 & R2).
  - pose proof (po_cas _ _ _ _ PO _ _ W) as EL.
    destruct r as [e u|e u cur|]; cbn [afterCas].
    + destruct R2 as (RB & RE & RW). destruct (RW _ _ E (or_introl (ex_intro _ l W))) as (OW & LE & RU). cbn in OW.
      destruct (u - wNow w <? enough) eqn:C1.
      { exists used. apply (put_light drift w used H i P _ _ [] IV quiet_nil); cbn; auto; try lia. discriminate. }
      destruct (setVers _ i _ l true _) as [[P' o]|] eqn:SV.
      * destruct (setVers_spec _ _ _ _ _ _ _ _ SV) as (S1 & S2 & -> & S3). cbn [cVers withState withWait] in S2.
        cbn [settle]. exists used. cbn [fst snd].
        destruct (one_up (putProc i (Some (Proc (cName P) (cAddr P) Am (keyVers e u (cVers P)) l (Some (hashPeerIDs l (keyVers e u (cVers P))))
                      (wNow w + later d) (cHeard P) (cConn P) (cBeat P) Idle (cWatch P))) (at_ (wNow w + later d) w)) i (keyVers e u (cVers P)) l o) as (K1 & K2 & K3 & K4).
        { destruct S3 as [S3|[S3 _]]; auto. }
        eapply (Inv_set drift w used H _ _ i P _ (keyVers e u (cVers P)) l IV); cbn [putProc at_ wUsed wLeaf wNow wNext wProcs wTkts wRes wPings wPongs
           cName cAddr cVers cList cWait cConn cState withState withWait keyVers vUntil vEpoch vWithin]; auto.
        -- lia.
        -- intros t q p v' l' J. destruct (K4 _ _ _ _ _ J).
        -- subst l. apply contend_ok; [|exact (po_used _ _ _ _ PO)].
           eapply okL_mono; [|intros x X; exact X|exact (po_list _ _ _ _ PO)]. cbn. lia.
        -- split; [lia|]. intro. lia.
        -- eauto.
        -- subst l. discriminate.
        -- intros _. subst l. split; [split; [reflexivity|apply getP_del]|].
           assert (X : vEpoch (cVers P) = e -> contend i P = cList P).
           { intros <-. destruct (po_own _ _ _ _ PO OW). apply contend_own; assumption. }
           split.
           ++ intros v' l' S O' [V1 V2]. cbn in V1, V2. destruct (po_views _ _ _ _ PO _ _ S O') as [Q1 Q2].
              assert (EE : vEpoch (cVers P) = e) by (unfold vle in Q1; lia).
              rewrite (X EE). apply Q2. rewrite EE, Z.eqb_refl in V2. split; congruence.
           ++ intros EE m e' _ G. rewrite (X (eq_sym EE)). left. exists e'. split; [assumption|lia].
      * exists used. cbn [settle fst snd]. apply (put_light drift w used H i P _ _ [] IV quiet_nil); cbn; auto; try lia.
        intros _. right. apply setVers_none in SV. cbn in SV. destruct SV as [SV|SV].
        -- destruct RU as [<-|[RU|RU]]; [auto|right; lia|right; lia].
        -- exfalso. pose proof (keyVers_le e u (cVers P) LE) as X. apply vlt_false in X. congruence.
    + destruct R2 as (RB & RO & k & RC & OW). cbn in OW.
      destruct (_ && negb (u =? 0)) eqn:C1.
      { exists used. apply (put_gone drift w used H i _ _ IV); [apply quiet_one; exact I|lia]. }
      destruct (setVers _ i _ cur false _) as [[P' o]|] eqn:SV.
      * destruct (setVers_spec _ _ _ _ _ _ _ _ SV) as (S1 & S2 & -> & S3). cbn [cVers withState withWait] in S2.
        assert (o = []) by (destruct S3 as [S3|[_ S3]]; [assumption|discriminate]). subst o.
        destruct (ho_own _ HO _ _ OW) as (OE & _). cbn [keyVers vUntil] in S1.
        cbn [settle]. exists used. cbn [fst snd stamped map].
        eapply (Inv_set drift w used H _ [] i P _ (keyVers e u (cVers P)) cur IV); cbn [putProc at_ wUsed wLeaf wNow wNext wProcs wTkts wRes wPings wPongs
           cName cAddr cVers cList cWait cConn cState withState withWait keyVers vUntil vEpoch vWithin]; auto.
        -- lia.
        -- intros v' l' S. destruct (shown_nil _ _ S).
        -- right. right. intros v' l'. apply shown_nil.
        -- intros t j v' l' [].
        -- intros t q p v' l' [].
        -- eapply okL_mono; [|intros x X; exact X|exact RO]. cbn. lia.
        -- split; [lia|]. intro. lia.
        -- eauto.
        -- congruence.
        -- intros OI. exfalso. assert (EI : dPeer k = i) by (exact (ho_one _ HO _ _ _ OW OI)).
           destruct RO as (RO & _). pose proof (RO _ RC) as U. rewrite EI in U. cbn in U.
           assert (EN : dName k = cName P) by (exact (ho_fun _ HO _ _ _ U (po_used _ _ _ _ PO))).
           rewrite RC in C1. cbn [cName withWait] in C1. rewrite EN, Nat.eqb_refl in C1. cbn [andb] in C1.
           apply negb_false_iff, Z.eqb_eq in C1. lia.
        -- discriminate.
      * exists used. cbn [settle fst snd]. apply (put_light drift w used H i P _ _ [] IV quiet_nil); cbn; auto; try lia.
        discriminate.
    + exists used. apply (put_light drift w used H i P _ _ [] IV quiet_nil); cbn; auto; try lia. discriminate.
  - destruct (po_renew _ _ _ _ PO _ W) as [L1 L2].
    destruct r as [e u|e u cur|]; cbn [afterRenew];
      try (exists used; apply (put_light0 drift w used H i P _ [] IV quiet_nil); cbn; auto; discriminate).
    destruct R2 as (RB & RE & RW). destruct (RW _ _ E (or_intror W)) as (OW & LE & RU). cbn in OW.
    destruct (e <? _) eqn:C1.
    { exists used. apply (put_gone0 drift w used H i _ IV). apply quiet_one; exact I. }
    exists used. cbn [settle fst snd].
    pose proof (quiet_one (wNow w) (OLease i u) I) as (K1 & K2 & K3 & K4).
    eapply (Inv_set drift w used H _ [(wNow w, OLease i u)] i P _ (Vers e (vWithin (cVers P)) u) (cList P) IV);
      cbn [putProc wUsed wLeaf wNow wNext wProcs wTkts wRes wPings wPongs
           cName cAddr cVers cList cWait cConn cState withVers withWait vUntil vEpoch vWithin]; auto.
    + lia.
    + intros v' l' S. destruct (K2 _ _ S).
    + intros t j v' l' J. destruct (K3 _ _ _ _ J).
    + intros t q p v' l' J. destruct (K4 _ _ _ _ _ J).
    + exact (po_list _ _ _ _ PO).
    + unfold vle; cbn; lia.
    + split; [lia|]. intro. lia.
    + eauto.
    + congruence.
    + intros _. split; [auto|]. split.
      * intros v' l' S O' [V1 V2]. cbn in V1, V2. destruct (po_views _ _ _ _ PO _ _ S O') as [Q1 Q2].
        apply Q2. split; [unfold vle in Q1; lia|assumption].
      * intros EE m e' _ G. left. exists e'. split; [assumption|lia].
Qed.

Lemma ev_pong w used H i d : Inv w used H -> Goal w H (step w (EPong i d)).
Proof.
  intro IV. cbn [Czar_Model.step]. destruct (wProcs w i) as [P|] eqn:E; [|apply (Goal_same _ _ used); assumption].
  pose proof (iv_proc _ _ _ _ IV _ _ E) as PO. pose proof (iv_hist _ _ _ _ IV) as HO.
  pose proof (ho_now _ HO) as N1. cbn in N1. pose proof (later_pos d) as D0.
  destruct (cWait P) as [|n l|n|n b] eqn:W; try (apply (Goal_same _ _ used); assumption).
  destruct (pick n (wPongs w)) as [r|] eqn:EK; try (apply (Goal_same _ _ used); assumption).
  apply pick_In in EK. pose proof (iv_pong _ _ _ _ IV _ _ EK) as (R1 & R2).
  pose proof (po_ping _ _ _ _ PO _ _ W) as NA.
  (* what an accepted view does *)
  assert (TAKE : forall v l P' o told bt, r = Some (v, l) ->
    setVers (wNow w + later d) i v l true (withWait Idle P) = Some (P', o) ->
    quiet (stamped (at_ (wNow w + later d) w) told) ->
    Inv (putProc i (Some (withBeat bt P')) (at_ (wNow w + later d) w)) used
        (H ++ stamped (at_ (wNow w + later d) w) (told ++ o))).
  { intros v l P' o told bt -> SV (T1 & T2 & T3 & T4). destruct R2 as (RB & t & q & p & RI & RW).
    destruct (setVers_spec _ _ _ _ _ _ _ _ SV) as (S1 & S2 & -> & S3). cbn [cVers withWait] in S2.
    destruct (ho_ans _ HO _ _ _ _ _ RI) as (OW & RO & RC). cbn in OW.
    destruct (ho_own _ HO _ _ OW) as (OE & _).
    destruct (one_up (at_ (wNow w + later d) w) i v l o) as (K1 & K2 & K3 & K4).
    { destruct S3 as [S3|[S3 _]]; auto. }
    unfold stamped. rewrite map_app. fold (stamped (at_ (wNow w + later d) w) told). fold (stamped (at_ (wNow w + later d) w) o).
    eapply (Inv_set drift w used H _ _ i P _ v l IV); cbn [putProc at_ wUsed wLeaf wNow wNext wProcs wTkts wRes wPings wPongs
       cName cAddr cVers cList cWait cConn cState withBeat withWait]; auto.
    - lia.
    - intros t0 e j J. apply in_app_or in J. destruct J as [J|J]; [exact (T1 _ _ _ J)|exact (K1 _ _ _ J)].
    - intros v' l' S. apply shown_app in S. destruct S as [S|S]; [destruct (T2 _ _ S)|auto].
    - left. exists t. eauto.
    - intros t0 j v' l' J. apply in_app_or in J. destruct J as [J|J]; [destruct (T3 _ _ _ _ J)|eauto].
    - intros t0 q' p' v' l' J. apply in_app_or in J. destruct J as [J|J]; [destruct (T4 _ _ _ _ _ J)|destruct (K4 _ _ _ _ _ J)].
    - eapply okL_mono; [|intros x X; exact X|exact RO]. cbn. lia.
    - split; [lia|]. intro. lia.
    - eauto.
    - tauto.
    - intros OI. exfalso. apply (RW _ _ E); [exists b; assumption|]. exact (ho_one _ HO _ _ _ OI OW).
    - tauto. }
  assert (HANG : Inv (putProc i (Some (hangUp (withWait Idle P))) (at_ (wNow w + later d) w)) used (H ++ [])).
  { apply (put_light drift w used H i P _ _ [] IV quiet_nil); cbn; auto; try lia. discriminate. }
  assert (KEEP : forall K, quiet K -> Inv (putProc i (Some (unwatch (withWait Idle P))) (at_ (wNow w + later d) w)) used (H ++ K)).
  { intros K QK. apply (put_light drift w used H i P _ _ K IV QK); cbn; auto; lia. }
  destruct b.
  - unfold afterFirst. destruct r as [[v l]|]; [|exists used; exact HANG].
    destruct (setVers _ i v l true _) as [[P' o]|] eqn:SV.
    + exists used. cbn [settle fst snd]. exact (TAKE v l P' o [] true eq_refl SV quiet_nil).
    + exists used. exact (KEEP [] quiet_nil).
  - unfold afterBeat. destruct r as [[v l]|]; [|exists used; exact HANG].
    destruct (getP _ (lPeers l)) as [e|].
    + destruct (negb (vUntil v =? 0) && _); [exists used; exact HANG|].
      assert (QT : forall w0, quiet (stamped w0 (if vUntil v =? 0 then [] else [OLease i (eUntil e)]))).
      { intro w0. destruct (vUntil v =? 0); [exact quiet_nil|]. apply quiet_one. exact I. }
      destruct (setVers _ i v l true _) as [[P' o]|] eqn:SV; exists used; cbn [settle fst snd].
      * exact (TAKE v l P' o _ true eq_refl SV (QT _)).
      * exact (KEEP _ (QT _)).
    + exists used. apply (put_gone drift w used H i _ _ IV); [apply quiet_one; exact I|lia].
Qed.

(** What a czar that drops silent members does. *)
Lemma expire_keep now p l h (m : nat) e : expire drift now p = (Some l, h) -> NoDup (names (lPeers (cList p))) ->
  0 < eUntil e -> getP m (lPeers (cList p)) = Some e ->
  getP m (lPeers l) = Some e \/ eUntil e + drift < now.
Proof.
  intros E N P G. destruct (expire_spec _ _ _ _ _ E N) as (_ & _ & _ & K).
  destruct (K _ _ G) as [A|[_ A]]; [auto|right]. eapply due_late; eassumption.
Qed.

Lemma expire_none now p l h m : expire drift now p = (Some l, h) -> NoDup (names (lPeers (cList p))) ->
  getP m (lPeers (cList p)) = None -> getP m (lPeers l) = None.
Proof.
  intros E N G. destruct (expire_spec _ _ _ _ _ E N) as (_ & _ & K & _).
  apply getP_None. intros x J. apply K in J. rewrite getP_None in G. auto.
Qed.

Lemma ev_expire w used H i : Inv w used H -> Goal w H (step w (EExpire i)).
Proof.
  intro IV. cbn [Czar_Model.step]. destruct (wProcs w i) as [P|] eqn:E; [|apply (Goal_same _ _ used); assumption].
  destruct (isAm P && isIdle P) eqn:C; [|apply (Goal_same _ _ used); assumption].
  apply andb_true_iff in C. destruct C as [C1 C2]. apply am_state in C1. apply idle_wait in C2.
  pose proof (iv_proc _ _ _ _ IV _ _ E) as PO. pose proof (iv_hist _ _ _ _ IV) as HO.
  pose proof (ho_now _ HO) as N1. cbn in N1.
  destruct (expire drift (wNow w) P) as [[l|] h] eqn:EX.
  - destruct (setVers _ i _ l true _) as [[P' o]|] eqn:SV.
    + destruct (setVers_spec _ _ _ _ _ _ _ _ SV) as (S1 & S2 & -> & S3). cbn [cVers withHeard] in *.
      assert (OW : own H (vEpoch (cVers P)) i).
      { destruct (po_am _ _ _ _ PO C1) as [O|O]; [exact O|]. cbn in O, S1. lia. }
      destruct (po_own _ _ _ _ PO OW) as [L1 L2]. pose proof (po_list _ _ _ _ PO) as OL.
      destruct (expire_spec _ _ _ _ _ EX (proj2 (proj2 OL))) as (X1 & X2 & X3 & X4).
      destruct (one_up w i (bump (cVers P)) l o) as (K1 & K2 & K3 & K4).
      { destruct S3 as [S3|[S3 _]]; auto. }
      exists used. cbn [fst snd].
      match goal with |- Czar_Proofs.Inv _ ?w' _ _ => change (stamped w' o) with (stamped w o) end.
      destruct (po_zero _ _ _ _ PO) as [Z1 Z2].
      eapply (Inv_set drift w used H _ _ i P _ (bump (cVers P)) l IV); cbn [putProc at_ wUsed wLeaf wNow wNext wProcs wTkts wRes wPings wPongs
         cName cAddr cVers cList cWait cConn cState withHeard bump vUntil vEpoch vWithin]; auto.
      * lia.
      * intros t q p v' l' J. destruct (K4 _ _ _ _ _ J).
      * eapply expire_okL; eassumption.
      * exact (po_until _ _ _ _ PO).
      * eauto.
      * intro Z. rewrite X1 in Z. exact (po_not _ _ _ _ PO Z).
      * intros _. split; [|split].
        -- split; [congruence|]. eapply expire_none; [eassumption|apply OL|assumption].
        -- intros v' l' S O' [V1 V2]. cbn in V1, V2. destruct (po_views _ _ _ _ PO _ _ S O') as [Q1 _]. unfold vle in Q1. lia.
        -- intros _ m e' _ G. destruct (getP_In _ _ _ G) as [J _]. destruct OL as (_ & OL & ON).
           destruct (expire_keep _ _ _ _ m e' EX ON (proj1 (OL _ J)) G) as [A|A]; [left; exists e'; split; [assumption|lia]|auto].
    + exists used. apply (put_light0 drift w used H i P _ [] IV quiet_nil); cbn; auto.
  - exists used. apply (put_light0 drift w used H i P _ [] IV quiet_nil); cbn; auto.
Qed.
End Views.
