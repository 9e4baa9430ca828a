(** A ping is handled; then the invariant of all runs. *)
From Coq Require Import List ZArith Bool Arith Lia.
Import ListNotations.
From Verif Require Import Czar_Model Czar_Spec Czar_Proofs Czar_Step Czar_Events Czar_Members Czar_Views.
Local Open Scope Z_scope.

Lemma getP_ins m e l : getP (dName (eDet e)) l = None ->
  getP m (insP e l) = if Nat.eqb (dName (eDet e)) m then Some e else getP m l.
Proof.
  induction l as [|x r IH]; cbn [insP getP]; intro N; [reflexivity|].
  destruct (Nat.ltb (dName (eDet e)) (dName (eDet x))); cbn [getP]; [reflexivity|].
  destruct (Nat.eqb_spec (dName (eDet x)) (dName (eDet e))) as [E|E]; [discriminate|].
  rewrite (IH N). destruct (Nat.eqb_spec (dName (eDet x)) m) as [E1|E1]; [|reflexivity].
  destruct (Nat.eqb_spec (dName (eDet e)) m); [congruence|reflexivity].
Qed.

Lemma getP_del_ne m k l : m <> k -> getP m (delP k l) = getP m l.
Proof.
  intro N. induction l as [|x r IH]; [reflexivity|]. cbn [delP filter getP].
  destruct (Nat.eqb_spec (dName (eDet x)) k) as [E|E]; cbn [negb getP].
  - destruct (Nat.eqb_spec (dName (eDet x)) m); [congruence|exact IH].
  - destruct (Nat.eqb_spec (dName (eDet x)) m); [reflexivity|exact IH].
Qed.

Lemma getP_set m e l :
  getP m (setP e l) = if Nat.eqb (dName (eDet e)) m then Some e else getP m l.
Proof.
  unfold setP. rewrite getP_ins by apply getP_del.
  destruct (Nat.eqb_spec (dName (eDet e)) m); [reflexivity|]. apply getP_del_ne. congruence.
Qed.

Section Ping.
Variable drift : Z.
Hypothesis drift0 : 0 <= drift.
Notation Inv := (Inv drift).
Notation step := (step drift).
Notation Goal := (Goal drift).

(** The three ways a ping ends well. *)
Lemma handlePing_spec now d i args p p' o a : handlePing drift now d i args p = Go (p', o, a) ->
  (a = None /\ o = [] /\ (p' = p \/ (cState p = Am /\ p' = withState Unknown p))) \/
  (cState p = Am /\ now <= vUntil (cVers p) /\ exists l, a = Some (cVers p', l) /\ cList p' = l /\
     cName p' = cName p /\ cAddr p' = cAddr p /\ cState p' = Am /\ cWait p' = cWait p /\ cConn p' = cConn p /\ lCzar l = lCzar (cList p) /\
     let ps1 := renewP (dName args) (now + memberLease) (lPeers (cList p)) in
     ((o = [] /\ cVers p' = cVers p /\ lPeers l = ps1 /\ getP (dName args) (lPeers (cList p)) <> None) \/
      (cVers p' = bump (cVers p) /\ now + d <= vUntil (cVers p) /\ (o = [] \/ o = [OUp i (cVers p') l]) /\
       (lPeers l = setP (Plus args (now + memberLease)) (lPeers (cList p)) \/
        exists p1 h, (lPeers (cList p1) = lPeers (cList p) \/ lPeers (cList p1) = ps1) /\
          expire drift (now + d) p1 = (Some l, h))))).
Proof.
  unfold handlePing. destruct (cState p) eqn:ES; try (intro E; injection E as <- <- <-; auto 6; fail).
  destruct (vUntil (cVers p) <? now) eqn:E1; [intro E; injection E as <- <- <-; auto 8|].
  apply Z.ltb_ge in E1. cbv zeta.
  set (upd := match getP (dName args) (lPeers (cList p)) with None => _ | Some _ => _ end).
  set (ps1 := match upd with None => _ | Some _ => _ end).
  set (p1 := withHeard _ (withList _ p)).
  assert (UP : upd = Some (setP (Plus args (now + memberLease)) (lPeers (cList p))) \/
               (upd = None /\ getP (dName args) (lPeers (cList p)) <> None)).
  { unfold upd. destruct (getP _ _) as [x|]; [|auto]. destruct (changed _ _); [auto|right; split; [reflexivity|discriminate]]. }
  assert (P1 : lPeers (cList p1) = lPeers (cList p) \/ lPeers (cList p1) = renewP (dName args) (now + memberLease) (lPeers (cList p))).
  { cbn. unfold ps1. destruct upd; auto. }
  destruct (expire drift (now + d) p1) as [[l|] h] eqn:EX.
  - destruct (setVers _ _ _ _ _ _) as [[q o0]|] eqn:SV; [|discriminate].
    intro E. injection E as <- <- <-. destruct (setVers_spec _ _ _ _ _ _ _ _ SV) as (S1 & S2 & -> & S3).
    right. split; [reflexivity|]. split; [assumption|]. cbn in *. exists l.
    assert (LC : lCzar l = lCzar (cList p)).
    { unfold expire in EX. destruct (filter _ _); [discriminate|]. injection EX as <- _. reflexivity. }
    do 8 (split; [auto|]). right. split; [reflexivity|]. split; [assumption|]. split; [destruct S3 as [S3|[S3 _]]; auto|].
    right. exists p1, h. auto.
  - assert (HH : h = cHeard p1).
    { unfold expire in EX. destruct (filter _ _); [|discriminate]. injection EX as <-. reflexivity. }
    destruct UP as [UP|[UP GP]].
    + rewrite UP. destruct (setVers _ _ _ _ _ _) as [[q o0]|] eqn:SV; [|discriminate].
      intro E. injection E as <- <- <-. destruct (setVers_spec _ _ _ _ _ _ _ _ SV) as (S1 & S2 & -> & S3).
      right. split; [reflexivity|]. split; [assumption|]. cbn in *. eexists. split; [reflexivity|].
      do 7 (split; [auto|]). right. split; [reflexivity|]. split; [assumption|]. split; [destruct S3 as [S3|[S3 _]]; auto|].
      left. reflexivity.
    + rewrite UP. intro E. injection E as <- <- <-. right. split; [reflexivity|]. split; [assumption|]. eexists.
      cbn. do 8 (split; [auto|]). left. split; [reflexivity|]. split; [reflexivity|]. split; [|assumption].
      unfold ps1. rewrite UP. reflexivity.
Qed.

Lemma ev_ping w used H n d : Inv w used H -> Goal w H (step w (EPing n d)).
Proof.
  intro IV. cbn [Czar_Model.step]. destruct (pick n (wPings w)) as [g|] eqn:EK; [|apply (Goal_same _ _ used); assumption].
  apply pick_In in EK. pose proof (iv_ping _ _ _ _ IV _ _ EK) as (G1 & G2 & G3 & (nm & G4 & G5) & G6). cbn in G1, G2, G4.
  destruct (wProcs w (pTo g)) as [P|] eqn:E; [|apply (Goal_same _ _ used); assumption].
  destruct (isAm P && negb (isIdle P)) eqn:C; [apply (Goal_same _ _ used); assumption|].
  pose proof (iv_proc _ _ _ _ IV _ _ E) as PO. pose proof (iv_hist _ _ _ _ IV) as HO.
  pose proof (ho_now _ HO) as N1. cbn in N1. pose proof (later_pos d) as D0.
  assert (EN : nm = cName P) by (exact (ho_fun _ HO _ _ _ G4 (po_used _ _ _ _ PO))). subst nm.
  set (i := pTo g) in *.
  destruct (handlePing drift (wNow w) (later d) i (pArgs g) P) as [[[P' o] a]|] eqn:HP.
  2:{ exists used. eapply (Inv_gone drift w used H _ _ i IV (quiet_one (wNow w + later d) (OPanic i) I)); cbn; auto.
      - lia.
      - intros x. apply drop_In. }
  destruct (handlePing_spec _ _ _ _ _ _ _ _ HP) as [(-> & -> & PP)|(SA & LN & l & -> & EL & E1 & E2 & E3 & E4 & E5 & E6 & CASES)].
  - exists used. eapply (Inv_light drift w used H _ [] i P P' IV quiet_nil); cbn [fst snd wUsed wLeaf wNow wNext wProcs wTkts wRes wPings wPongs]; auto;
      try (destruct PP as [-> |[_ ->]]; reflexivity).
    + lia.
    + destruct PP as [-> |[_ ->]]; [auto|discriminate].
    + destruct PP as [-> |[_ ->]]; auto.
    + intros q b X. apply (po_conn _ _ _ _ PO q b). destruct PP as [-> |[_ ->]]; exact X.
    + intros k b X. destruct PP as [-> |[_ ->]]; [exact (po_ping _ _ _ _ PO k b X)|discriminate].
    + intros k t J. left. eapply drop_In. exact J.
    + intros k t [J|J]; [right|left; exact J]. injection J as <- <-. split; [cbn; lia|exact I].
  - assert (OW : own H (vEpoch (cVers P)) i).
    { destruct (po_am _ _ _ _ PO SA) as [O|O]; [exact O|]. cbn in O. lia. }
    destruct (po_own _ _ _ _ PO OW) as [L1 L2]. pose proof (po_list _ _ _ _ PO) as OL. cbn in OL.
    assert (CI : cWait P = Idle).
    { unfold isAm in C. rewrite SA in C. cbn [andb] in C. apply negb_false_iff in C. apply idle_wait. exact C. }
    assert (EV : vEpoch (cVers P') = vEpoch (cVers P) /\ vUntil (cVers P') = vUntil (cVers P) /\ vle (cVers P) (cVers P')).
    { destruct CASES as [(_ & -> & _)|(-> & _)]; [auto using vle_refl|]. cbn. auto using vle_bump. }
    destruct EV as (EV1 & EV2 & EV3).
    set (ps := lPeers (cList P)) in *. set (m := dName (pArgs g)) in *.
    assert (LS : 0 < wNow w + memberLease <= (wNow w + later d) + memberLease) by (unfold memberLease; lia).
    assert (OL' : okL (wNow w + later d) used (cList P)) by (eapply okL_mono; [|intros x X; exact X|exact OL]; lia).
    (* the list after the lease is renewed *)
    assert (ONE : forall L, (lPeers L = ps \/ lPeers L = renewP m (wNow w + memberLease) ps) ->
              NoDup (names (lPeers L)) /\ (forall x, In x (lPeers L) -> 0 < eUntil x <= wNow w + later d + memberLease) /\
              getP (cName P) (lPeers L) = None /\
              forall k x, getP k ps = Some x -> exists x', getP k (lPeers L) = Some x' /\ eUntil x <= eUntil x' /\ 0 < eUntil x').
    { intros L [-> | ->].
      - split; [apply OL|]. split; [apply OL'|]. split; [assumption|]. intros k x G. exists x. split; [assumption|].
        split; [lia|]. apply OL. apply (getP_In _ _ _ G).
      - split; [rewrite names_renew; apply OL|]. split.
        + intros x J. apply renew_In in J. destruct J as [J|(x0 & J & ->)]; [apply OL'; exact J|cbn; lia].
        + split; [apply getP_renew_none; assumption|]. intros k x G. apply (getP_renew_some _ m (wNow w + memberLease)) in G as G'.
          eexists. split; [exact G'|]. destruct (getP_In _ _ _ G) as [J _]. destruct OL as (_ & OL & _). specialize (OL _ J).
          destruct (Nat.eqb k m); cbn; lia. }
    assert (LL : okL (wNow w + later d) used l /\ getP (cName P) (lPeers l) = None /\
              forall k x, getP k ps = Some x ->
                (exists x', getP k (lPeers l) = Some x' /\ eUntil x <= eUntil x') \/ eUntil x + drift < wNow w + later d).
    { assert (CZ : forall c, lCzar l = Some c -> In (dPeer c, dName c) used) by (intros c; rewrite E6; apply OL).
      destruct CASES as [(_ & _ & X & _)|(_ & _ & _ & [X|(p1 & h & X & EX)])].
      - destruct (ONE l (or_intror X)) as (B1 & B2 & B3 & B4).
        split; [split; [assumption|auto]|]. split; [assumption|]. intros k x G. destruct (B4 _ _ G) as (x' & B5 & B6 & _). eauto.
      - split; [|split].
        + split; [assumption|]. rewrite X. split.
          * intros x J. apply setP_In in J. destruct J as [-> |[J _]]; [cbn; lia|apply OL'; exact J].
          * apply NoDup_set. apply OL.
        + rewrite X, getP_set. cbn. destruct (Nat.eqb_spec (dName (pArgs g)) (cName P)) as [X'|]; [|assumption].
          exfalso. exact (G5 (eq_sym X')).
        + intros k x G. left. rewrite X, getP_set. cbn. destruct (Nat.eqb (dName (pArgs g)) k); [|exists x; split; [assumption|lia]].
          eexists. split; [reflexivity|]. cbn. destruct (getP_In _ _ _ G) as [J _]. destruct OL as (_ & OL & _). specialize (OL _ J). lia.
      - destruct (ONE _ X) as (B1 & B2 & B3 & B4). destruct (expire_spec _ _ _ _ _ EX B1) as (X1 & X2 & X3 & X4).
        split; [split; [assumption|auto]|]. split; [eapply expire_none; eassumption|].
        intros k x G. destruct (B4 _ _ G) as (x' & B5 & B6 & B7).
        destruct (expire_keep _ _ _ _ _ k x' EX B1 B7 B5) as [A|A]; [left; eauto|right; lia]. }
    destruct LL as (LL1 & LL2 & LL3).
    set (K := stamped (at_ (wNow w + later d) w) (o ++ [OAns i (pFrom g) (cVers P') l])).
    assert (KX : forall t x, In (t, x) K -> x = OUp i (cVers P') l \/ x = OAns i (pFrom g) (cVers P') l).
    { intros t x J. unfold K, stamped in J. apply in_map_iff in J. destruct J as (y & Y & J). injection Y as _ <-.
      apply in_app_or in J. destruct J as [J|[<-|[]]]; [|auto]. left.
      destruct CASES as [(-> & _)|(_ & _ & [-> | ->] & _)]; [destruct J|destruct J|destruct J as [<-|[]]; reflexivity]. }
    exists used. cbn [fst snd]. change (Czar_Proofs.Inv drift
      (World (wNow w + later d) (wLeaf w) (setProc i (Some P') (wProcs w)) (wUsed w) (wNext w) (wTkts w) (wRes w)
        (drop n (wPings w)) ((n, Some (cVers P', l)) :: wPongs w)) used (H ++ K)).
    eapply (Inv_set drift w used H _ K i P P' (cVers P') l IV); cbn [wUsed wLeaf wNow wNext wProcs wTkts wRes wPings wPongs]; auto.
    + lia.
    + intros t e j J. destruct (KX _ _ J); discriminate.
    + intros v' l' [t [[p J]|[q [p J]]]]; destruct (KX _ _ J) as [X|X]; try discriminate; injection X; auto.
    + rewrite EV1. auto.
    + intros t j v' l' J. destruct (KX _ _ J) as [X|X]; congruence.
    + intros t q p v' l' J. rewrite EV1. destruct (KX _ _ J) as [X|X]; [discriminate|]. split; [congruence|assumption].
    + congruence.
    + rewrite EV2. exact (po_until _ _ _ _ PO).
    + rewrite EV1, EV2. exact (po_zero _ _ _ _ PO).
    + rewrite EV1. eauto.
    + rewrite E6, EV1. exact (po_not _ _ _ _ PO).
    + intros _. split; [split; [congruence|assumption]|]. split.
      * intros v' l' S O' V. destruct (po_views _ _ _ _ PO _ _ S O') as [Q1 Q2].
        destruct CASES as [(_ & EV & X & _)|(EV & _)].
        -- rewrite EV in V. rewrite (Q2 V). unfold contentOf. rewrite E6, X. f_equal. symmetry. apply ids_renew.
        -- destruct V as [V1 V2]. rewrite EV in V1, V2. cbn in V1, V2. unfold vle in Q1. lia.
      * intros _ k x _ G. apply LL3. exact G.
    + rewrite EV1. auto.
    + intros x. apply drop_In.
    + intros k t [J|J]; [right|auto]. injection J as <- <-. split; [cbn; lia|]. split.
      * destruct (po_until _ _ _ _ PO) as [Z|Z]; [lia|]. rewrite EV2. exact Z.
      * exists (wNow w + later d), i, (pFrom g). split.
        -- apply in_or_app. right. unfold K, stamped. apply in_map_iff. eexists. split; [reflexivity|].
           apply in_or_app. right. left. reflexivity.
        -- intros j Q EQ WQ. cbn in EQ. intros ->. unfold setProc in EQ. rewrite Nat.eqb_refl in EQ. injection EQ as <-.
           destruct WQ as [b WQ]. congruence.
Qed.

Theorem step_Inv w used H e : Inv w used H -> Goal w H (step w e).
Proof.
  intro IV. destruct e.
  - eapply ev_tick; eassumption.
  - eapply ev_start; eassumption.
  - eapply ev_kill; eassumption.
  - eapply ev_cas; eassumption.
  - eapply ev_renew; eassumption.
  - eapply ev_apply; eassumption.
  - eapply ev_reply; eassumption.
  - eapply ev_timeout; eassumption.
  - eapply ev_dial; eassumption.
  - eapply ev_beat; eassumption.
  - eapply ev_ping; eassumption.
  - eapply ev_pong; eassumption.
  - eapply ev_callfail; eassumption.
  - eapply ev_drop; eassumption.
  - eapply ev_expire; eassumption.
  - eapply ev_lapse; eassumption.
Qed.

Lemma start_Inv : Inv start [] [].
Proof.
  constructor; cbn; try (intros ? ? []; fail); try discriminate; [reflexivity|].
  constructor; cbn; try (intros; contradiction); try discriminate.
  - intros e i [t []].
  - intros e i j [t []].
  - intros v l S. destruct (shown_nil _ _ S).
  - intros v l v' l' S. destruct (shown_nil _ _ S).
Qed.

Lemma run_Inv es : forall w used H, Inv w used H ->
  exists used', Inv (fst (run drift w es)) used' (H ++ snd (run drift w es)).
Proof.
  induction es as [|e r IH]; intros w used H IV; cbn [run].
  - exists used. cbn. rewrite app_nil_r. assumption.
  - destruct (step_Inv w used H e IV) as [used1 IV1]. destruct (step w e) as [w1 o]. cbn [fst snd] in IV1.
    destruct (IH _ _ _ IV1) as [used2 IV2]. destruct (run drift w1 r) as [w2 tr]. cbn [fst snd] in *.
    exists used2. rewrite app_assoc. exact IV2.
Qed.

Lemma run_app es es' w : run drift w (es ++ es') =
  (fst (run drift (fst (run drift w es)) es'), snd (run drift w es) ++ snd (run drift (fst (run drift w es)) es')).
Proof.
  revert w. induction es as [|e r IH]; intro w; cbn [run app].
  - cbn. destruct (run drift w es'); reflexivity.
  - destruct (step w e) as [w1 o]. rewrite IH. destruct (run drift w1 r) as [w2 tr]. cbn.
    destruct (run drift w2 es') as [w3 tr3]. cbn. rewrite app_assoc. reflexivity.
Qed.

Lemma reach es : exists used, Inv (fst (run drift start es)) used (snd (run drift start es)).
Proof. destruct (run_Inv es start [] [] start_Inv) as [u IV]. exists u. exact IV. Qed.
End Ping.
