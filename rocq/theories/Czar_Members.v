(** The events of the members keep the invariant. *)
From Coq Require Import List ZArith Bool Arith Lia.
Import ListNotations.
From Verif Require Import Czar_Model Czar_Spec Czar_Proofs Czar_Step Czar_Events.
Local Open Scope Z_scope.

Section Members.
Variable drift : Z.
Hypothesis drift0 : 0 <= drift.
Notation Inv := (Inv drift).
Notation step := (step drift).
Notation Goal := (Goal drift).

(** A process changes state, nothing else does but the clock. *)
Lemma put_light w used H i P P' t K :
  Inv w used H -> quiet K -> wNow w <= t -> wProcs w i = Some P ->
  cName P' = cName P -> cAddr P' = cAddr P -> cVers P' = cVers P -> cList P' = cList P ->
  (cState P' = Am -> cState P = Am \/ own H (vEpoch (cVers P)) i \/ vUntil (cVers P) < t) ->
  cWait P' = Idle -> (cConn P' = cConn P \/ cConn P' = None) ->
  Inv (putProc i (Some P') (at_ t w)) used (H ++ K).
Proof.
  intros IV Q T E E1 E2 E3 E4 S W C.
  eapply (Inv_light drift w used H _ K i P P' IV Q); cbn; auto.
  - intros q a EC. destruct C as [C|C]; [|congruence]. rewrite C in EC.
    exact (po_conn _ _ _ _ (iv_proc _ _ _ _ IV _ _ E) _ _ EC).
  - intros n b EW. congruence.
Qed.

Lemma at_same w : at_ (wNow w) w = w.
Proof. destruct w; reflexivity. Qed.

Lemma put_light0 w used H i P P' K :
  Inv w used H -> quiet K -> wProcs w i = Some P ->
  cName P' = cName P -> cAddr P' = cAddr P -> cVers P' = cVers P -> cList P' = cList P ->
  (cState P' = Am -> cState P = Am \/ own H (vEpoch (cVers P)) i \/ vUntil (cVers P) < wNow w) ->
  cWait P' = Idle -> (cConn P' = cConn P \/ cConn P' = None) ->
  Inv (putProc i (Some P') w) used (H ++ K).
Proof.
  intros IV Q E. intros. rewrite <- (at_same w). eapply put_light; eauto. lia.
Qed.

Lemma put_gone w used H i t K : Inv w used H -> quiet K -> wNow w <= t -> Inv (putProc i None (at_ t w)) used (H ++ K).
Proof. intros IV Q T. eapply (Inv_gone drift w used H _ K i IV Q); cbn; auto. Qed.
Lemma put_gone0 w used H i K : Inv w used H -> quiet K -> Inv (putProc i None w) used (H ++ K).
Proof. intros IV Q. rewrite <- (at_same w). apply put_gone; auto. lia. Qed.

Lemma contend_ok now used P i : okL now used (cList P) -> In (i, cName P) used -> okL now used (contend i P).
Proof.
  intros (A & B & C) U. unfold contend. split; [|split]; cbn [lCzar lPeers].
  - intros c E. injection E as <-. exact U.
  - intros e J. apply delP_In in J. destruct J as [J _]. destruct (lCzar (cList P)); [apply delP_In in J; destruct J as [J _]|]; auto.
  - apply NoDup_del. destruct (lCzar (cList P)); [apply NoDup_del|]; assumption.
Qed.

Lemma getP_del m l : getP m (delP m l) = None.
Proof. apply getP_None. intros e J. apply delP_In in J. tauto. Qed.

Lemma contend_own i P : lCzar (cList P) = Some (Det (cName P) i (cAddr P)) -> getP (cName P) (lPeers (cList P)) = None ->
  contend i P = cList P.
Proof.
  intros A B. unfold contend. rewrite A. cbn [dName]. rewrite (delP_id _ _ B), (delP_id _ _ B). rewrite <- A.
  destruct (cList P); reflexivity.
Qed.

Lemma fresh_cas w used H i P P' l t n :
  Inv w used H -> wProcs w i = Some P -> cVers P' = cVers P -> n = wNext w ->
  okL (wNow w) used l -> (exists a, lCzar l = Some (Det (cName P) i a)) ->
  t = Tkt i (cName P) l (vEpoch (cVers P)) ->
  tktOK (Ctx (wNow w) (wLeaf w) used (S (wNext w)) (H ++ [])) (setProc i (Some P') (wProcs w)) n t.
Proof.
  intros IV E EV -> OK CZ ->. pose proof (iv_proc _ _ _ _ IV _ _ E) as PO.
  split; [cbn; lia|]. split; [exact (po_used _ _ _ _ PO)|]. split; [exact OK|].
  split; [apply (po_zero _ _ _ _ PO)|]. split; [exact CZ|]. cbn.
  intros j Q EQ W. destruct (Nat.eq_dec j i) as [-> |NE].
  - rewrite setProc_eq in EQ. injection EQ as <-. rewrite EV. auto.
  - rewrite setProc_ne in EQ by assumption. pose proof (po_serial _ _ _ _ (iv_proc _ _ _ _ IV _ _ EQ) _ (waitsCas_serial _ _ W)) as L.
    cbn in L. lia.
Qed.

Lemma ev_cas w used H i : Inv w used H -> Goal w H (step w (ECas i)).
Proof.
  intro IV. cbn. destruct (wProcs w i) as [P|] eqn:E; [|apply (Goal_same _ _ used); assumption].
  destruct (isUnknown P && isIdle P) eqn:C; [|apply (Goal_same _ _ used); assumption].
  apply andb_true_iff in C. destruct C as [C1 C2].
  pose proof (iv_proc _ _ _ _ IV _ _ E) as PO.
  exists used. eapply (Inv_light drift w used H _ [] i P _ IV quiet_nil); cbn; try reflexivity; try lia; auto.
  - right. right. split; [intros n <-; lia|]. split; [|discriminate]. intros n l X. injection X as _ <-. reflexivity.
  - intros q a EC. exact (po_conn _ _ _ _ PO _ _ EC).
  - discriminate.
  - intros n t [X|X]; [right|auto]. injection X as <- <-.
    eapply fresh_cas; eauto; try reflexivity.
    + apply contend_ok; [exact (po_list _ _ _ _ PO)|exact (po_used _ _ _ _ PO)].
    + cbn. eauto.
Qed.

Lemma ev_renew w used H i : Inv w used H -> Goal w H (step w (ERenew i)).
Proof.
  intro IV. cbn. destruct (wProcs w i) as [P|] eqn:E; [|apply (Goal_same _ _ used); assumption].
  destruct (isAm P && isIdle P) eqn:C; [|apply (Goal_same _ _ used); assumption].
  apply andb_true_iff in C. destruct C as [C1 C2].
  pose proof (iv_proc _ _ _ _ IV _ _ E) as PO. pose proof (iv_hist _ _ _ _ IV) as HO.
  remember (ML (Some (Det (cName P) i (cAddr P))) (delP (cName P) (lPeers (cList P)))) as l eqn:El.
  assert (LC : lCzar l = Some (Det (cName P) i (cAddr P))) by (subst l; reflexivity).
  assert (LG : getP (cName P) (lPeers l) = None) by (subst l; apply getP_del).
  exists used. cbn [fst snd stamped map].
  set (w' := World _ _ _ _ _ _ _ _ _). unfold stamped. cbn [map].
  assert (OK : okL (wNow w) used l).
  { subst l. apply okL_del; [exact (po_list _ _ _ _ PO)|]. intros k X. injection X as <-. exact (po_used _ _ _ _ PO). }
  assert (SM : own H (vEpoch (cVers P)) i -> l = cList P).
  { intro O. destruct (po_own _ _ _ _ PO O) as [A B]. rewrite El, (delP_id _ _ B), <- A. destruct (cList P); reflexivity. }
  eapply (Inv_upd drift w used H w' [] i); cbn; try reflexivity; try lia; auto.
  - intros v l0 S. destruct (shown_nil _ _ S).
  - intros P' X. injection X as <-. split; [|right; cbn; intros n <-; lia].
    eapply (procOK_set drift (ctxOf w used H) _ [] i P _ (cVers P) l); cbn; try reflexivity; auto.
    + unfold grows, ctxOf; cbn. split; [lia|]. split; [|auto]. intros x X. exists x. split; [assumption|lia].
    + intros v l0 S. destruct (shown_nil _ _ S).
    + intros t v l0 [].
    + intros t p v l0 [].
    + apply vle_refl.
    + exact (po_until _ _ _ _ PO).
    + exact (po_zero _ _ _ _ PO).
    + exact (po_epoch _ _ _ _ PO).
    + congruence.
    + intro O. rewrite (SM O). split; [exact (po_own _ _ _ _ PO O)|]. split.
      * intros v' l' S O' SV. apply (po_views _ _ _ _ PO _ _ S O'). exact SV.
      * intros _ m e' NE G. left. exists e'. split; [assumption|lia].
    + exact (po_am _ _ _ _ PO).
    + intros n <-. lia.
    + discriminate.
    + exact (po_conn _ _ _ _ PO).
    + discriminate.
  - intros n t [X|X]; [right|auto]. injection X as <- <-. eapply fresh_cas; eauto; try reflexivity.
Qed.

Lemma ev_timeout w used H i : Inv w used H -> Goal w H (step w (ETimeout i)).
Proof.
  intro IV. cbn. destruct (wProcs w i) as [P|] eqn:E; [|apply (Goal_same _ _ used); assumption].
  destruct (cWait P) eqn:W; try (apply (Goal_same _ _ used); assumption);
    exists used; (eapply (put_light0 w used H i P _ [] IV quiet_nil); cbn; auto; discriminate).
Qed.

Lemma ev_callfail w used H i : Inv w used H -> Goal w H (step w (ECallFail i)).
Proof.
  intro IV. cbn. destruct (wProcs w i) as [P|] eqn:E; [|apply (Goal_same _ _ used); assumption].
  destruct (cWait P) eqn:W; try (apply (Goal_same _ _ used); assumption);
    exists used; (eapply (put_light0 w used H i P _ [] IV quiet_nil); cbn; auto; discriminate).
Qed.

Lemma idle_wait p : isIdle p = true -> cWait p = Idle.
Proof. unfold isIdle. destruct (cWait p); congruence. Qed.
Lemma am_state p : isAm p = true -> cState p = Am.
Proof. unfold isAm. destruct (cState p); congruence. Qed.
Lemma not_state p : isNot p = true -> cState p = Not.
Proof. unfold isNot. destruct (cState p); congruence. Qed.

Lemma ev_drop w used H i : Inv w used H -> Goal w H (step w (EDrop i)).
Proof.
  intro IV. cbn. destruct (wProcs w i) as [P|] eqn:E; [|apply (Goal_same _ _ used); assumption].
  destruct (isNot P && isIdle P && _ && cWatch P) eqn:C; [|apply (Goal_same _ _ used); assumption].
  rewrite !andb_true_iff in C. destruct C as [[[C1 C2] _] _]. apply idle_wait in C2.
  exists used; (eapply (put_light0 w used H i P _ [] IV quiet_nil); cbn; auto; discriminate).
Qed.

Lemma ev_lapse w used H i : Inv w used H -> Goal w H (step w (ELapse i)).
Proof.
  intro IV. cbn. destruct (wProcs w i) as [P|] eqn:E; [|apply (Goal_same _ _ used); assumption].
  destruct (isAm P && isIdle P && _) eqn:C; [|apply (Goal_same _ _ used); assumption].
  rewrite !andb_true_iff in C. destruct C as [[C1 C2] _]. apply idle_wait in C2.
  exists used; (eapply (put_light0 w used H i P _ [] IV quiet_nil); cbn; auto; discriminate).
Qed.

Lemma fresh_ping w used H K i P P' q a nm n g :
  Inv w used H -> wProcs w i = Some P -> n = wNext w -> In (q, nm) used -> nm <> cName P ->
  g = Ping i q (Det (cName P) i a) ->
  pingOK (Ctx (wNow w) (wLeaf w) used (S (wNext w)) (H ++ K)) (setProc i (Some P') (wProcs w)) n g.
Proof.
  intros IV E -> U NE ->. pose proof (iv_proc _ _ _ _ IV _ _ E) as PO.
  split; [cbn; lia|]. split; [exact (po_used _ _ _ _ PO)|]. split; [reflexivity|]. split; [cbn; eauto|]. cbn.
  intros j Q EQ W. destruct (Nat.eq_dec j i) as [-> |NJ]; [reflexivity|].
  rewrite setProc_ne in EQ by assumption. pose proof (po_serial _ _ _ _ (iv_proc _ _ _ _ IV _ _ EQ) _ (waitsPing_serial _ _ W)) as L.
  cbn in L. lia.
Qed.

Lemma ev_dial w used H i ok a : Inv w used H -> Goal w H (step w (EDial i ok a)).
Proof.
  intro IV. cbn. destruct (wProcs w i) as [P|] eqn:E; [|apply (Goal_same _ _ used); assumption].
  destruct (isNot P && isIdle P && _) eqn:C; [|apply (Goal_same _ _ used); assumption].
  rewrite !andb_true_iff in C. destruct C as [[C1 C2] C3]. apply idle_wait in C2. apply not_state in C1.
  pose proof (iv_proc _ _ _ _ IV _ _ E) as PO.
  destruct (lCzar (cList P)) as [c|] eqn:EC.
  - assert (U : In (dPeer c, dName c) used) by (apply (po_list _ _ _ _ PO); assumption).
    destruct (Nat.eqb (dName c) (cName P) || negb ok) eqn:D.
    + exists used; (eapply (put_light0 w used H i P _ [] IV quiet_nil); cbn; auto; discriminate).
    + apply orb_false_iff in D. destruct D as [D _]. apply Nat.eqb_neq in D.
      exists used. eapply (Inv_light drift w used H _ _ i P _ IV (quiet_one (wNow w) (OPing i) I)); cbn; try reflexivity; try lia; auto.
      * right. right. split; [intros n <-; lia|]. split; discriminate.
      * intros q b X. injection X as <- <-. eauto.
      * intros n b _. cbn. rewrite C1. discriminate.
      * intros n g [X|X]; [right|auto]. injection X as <- <-. eapply (fresh_ping w used H [(wNow w, OPing i)]); eauto.
  - exists used. apply (put_gone0 w used H i [(wNow w, OPanic i)] IV). apply quiet_one. exact I.
Qed.

Lemma ev_beat w used H i : Inv w used H -> Goal w H (step w (EBeat i)).
Proof.
  intro IV. cbn. destruct (wProcs w i) as [P|] eqn:E; [|apply (Goal_same _ _ used); assumption].
  destruct (cConn P) as [[q a]|] eqn:EC; [|apply (Goal_same _ _ used); assumption].
  destruct (isNot P && isIdle P && _) eqn:C; [|apply (Goal_same _ _ used); assumption].
  rewrite !andb_true_iff in C. destruct C as [[C1 C2] C3]. apply idle_wait in C2. apply not_state in C1.
  pose proof (iv_proc _ _ _ _ IV _ _ E) as PO. destruct (po_conn _ _ _ _ PO _ _ EC) as (nm & U & NE).
  exists used. eapply (Inv_light drift w used H _ _ i P _ IV (quiet_one (wNow w) (OPing i) I)); cbn; try reflexivity; try lia; auto.
  - right. right. split; [intros n <-; lia|]. split; discriminate.
  - intros k b X. exact (po_conn _ _ _ _ PO k b X).
  - intros n b _. cbn. rewrite C1. discriminate.
  - intros n g [X|X]; [right|auto]. injection X as <- <-. eapply (fresh_ping w used H [(wNow w, OPing i)]); eauto.
Qed.
End Members.
