(** Every step keeps the invariant. *)
From Coq Require Import List ZArith Bool Arith Lia.
Import ListNotations.
From Verif Require Import Czar_Model Czar_Spec Czar_Proofs.
Local Open Scope Z_scope.

Lemma setVers_spec now i v l up p p' o :
  setVers now i v l up p = Some (p', o) ->
  now <= vUntil v /\ vle (cVers p) v /\
  p' = Proc (cName p) (cAddr p) (cState p) v l (Some (hashPeerIDs l v)) now (cHeard p) (cConn p) (cBeat p) (cWait p) (cWatch p) /\
  (o = [] \/ (o = [OUp i v l] /\ up = true)).
Proof.
  unfold setVers. destruct (vUntil v <? now) eqn:E1; [discriminate|]. destruct (vlt v (cVers p)) eqn:E2; [discriminate|].
  apply Z.ltb_ge in E1. apply vlt_false in E2. cbv zeta.
  destruct (match cHash p with None => true | Some h' => negb (eqbH (hashPeerIDs l v) h') end); destruct up; cbn [andb];
    intro E; injection E as <- <-; auto 8.
Qed.

Lemma setVers_none now i v l up p :
  setVers now i v l up p = None -> vUntil v < now \/ vlt v (cVers p) = true.
Proof.
  unfold setVers. destruct (vUntil v <? now) eqn:E1; [apply Z.ltb_lt in E1; auto|].
  destruct (vlt v (cVers p)) eqn:E2; [auto|discriminate].
Qed.

Lemma contend_ext i p q : cName p = cName q -> cAddr p = cAddr q -> cList p = cList q -> contend i p = contend i q.
Proof. intros A B C. unfold contend. rewrite A, B, C. reflexivity. Qed.

Lemma names_renew m u l : names (renewP m u l) = names l.
Proof.
  unfold names, renewP. rewrite map_map. apply map_ext. intro e.
  destruct (Nat.eqb (dName (eDet e)) m); reflexivity.
Qed.

Lemma ids_renew m u l : map (fun e => ids (eDet e)) (renewP m u l) = map (fun e => ids (eDet e)) l.
Proof.
  unfold renewP. rewrite map_map. apply map_ext. intro e.
  destruct (Nat.eqb (dName (eDet e)) m); reflexivity.
Qed.

Lemma getP_renew_some k m u l e : getP k l = Some e ->
  getP k (renewP m u l) = Some (if Nat.eqb k m then Plus (eDet e) u else e).
Proof.
  induction l as [|x r IH]; cbn [getP renewP map]; [discriminate|].
  destruct (Nat.eqb_spec (dName (eDet x)) m) as [E1|E1]; cbn [eDet].
  - destruct (Nat.eqb_spec (dName (eDet x)) k) as [E2|E2]; [|exact IH].
    intro E. inversion E; subst. rewrite Nat.eqb_refl. reflexivity.
  - destruct (Nat.eqb_spec (dName (eDet x)) k) as [E2|E2]; [|exact IH].
    intro E. inversion E; subst. apply Nat.eqb_neq in E1. rewrite E1. reflexivity.
Qed.

Lemma getP_renew_none k m u l : getP k l = None -> getP k (renewP m u l) = None.
Proof.
  induction l as [|x r IH]; cbn [getP renewP map]; [auto|].
  destruct (Nat.eqb_spec (dName (eDet x)) m) as [E1|E1]; cbn [eDet];
    destruct (Nat.eqb_spec (dName (eDet x)) k) as [E2|E2]; auto; discriminate.
Qed.

Lemma renew_In m u l e : In e (renewP m u l) -> (In e l \/ exists e0, In e0 l /\ e = Plus (eDet e0) u).
Proof.
  unfold renewP. rewrite in_map_iff. intros (x & E & J). destruct (Nat.eqb (dName (eDet x)) m); subst; eauto.
Qed.

Section Step.
Variable drift : Z.
Hypothesis drift0 : 0 <= drift.
Notation Inv := (Inv drift).
Notation procOK := (procOK drift).
Notation step := (step drift).

Lemma okL_renew now used l m u :
  okL now used l -> 0 < u <= now + memberLease -> okL now used (ML (lCzar l) (renewP m u (lPeers l))).
Proof.
  intros (A & B & C) U. split; [|split]; cbn.
  - assumption.
  - intros e J. apply renew_In in J. destruct J as [J|(e0 & J & ->)]; [auto|cbn; assumption].
  - rewrite names_renew. assumption.
Qed.

Lemma okL_set now used l e :
  okL now used l -> 0 < eUntil e <= now + memberLease -> okL now used (ML (lCzar l) (setP e (lPeers l))).
Proof.
  intros (A & B & C) U. split; [|split]; cbn.
  - assumption.
  - intros x J. apply setP_In in J. destruct J as [-> |[J _]]; [assumption|auto].
  - apply NoDup_set. assumption.
Qed.

(** What [expire] gives. *)
Lemma expire_spec now p l h :
  expire drift now p = (Some l, h) -> NoDup (names (lPeers (cList p))) ->
  lCzar l = lCzar (cList p) /\ NoDup (names (lPeers l)) /\
  (forall e, In e (lPeers l) -> In e (lPeers (cList p))) /\
  (forall m e, getP m (lPeers (cList p)) = Some e ->
     getP m (lPeers l) = Some e \/ (getP m (lPeers l) = None /\ due drift now p e = true)).
Proof.
  unfold expire. remember (filter (due drift now p) (lPeers (cList p))) as gone eqn:EG.
  assert (GI : forall e, In e gone <-> In e (lPeers (cList p)) /\ due drift now p e = true) by (intro; subst; apply filter_In).
  destruct gone as [|g r] eqn:Eg; [discriminate|]. rewrite <- Eg in *.
  intro E. inversion E; subst l h; clear E. intro N. cbn [lCzar lPeers].
  split; [reflexivity|]. split; [apply folddel_NoDup; assumption|].
  split.
  - intros e J. apply folddel_In in J. tauto.
  - intros m e G. destruct (getP_In _ _ _ G) as [J NM].
    remember (fold_left (fun l e => delP (dName (eDet e)) l) gone (lPeers (cList p))) as L eqn:EL.
    destruct (due drift now p e) eqn:D.
    + right. split; [|reflexivity]. apply getP_None. intros x Jx Ex. subst L. apply folddel_In in Jx.
      destruct Jx as [Jx F]. apply (F e); [apply GI; auto|]. congruence.
    + left. rewrite <- NM. apply getP_uniq; [subst L; apply folddel_NoDup; assumption|].
      subst L. apply folddel_In. split; [assumption|]. intros g0 Jg EQ. apply GI in Jg. destruct Jg as [Jg Dg].
      assert (G1 : getP (dName (eDet e)) (lPeers (cList p)) = Some e) by (apply getP_uniq; assumption).
      assert (G2 : getP (dName (eDet g0)) (lPeers (cList p)) = Some g0) by (apply getP_uniq; assumption).
      rewrite EQ in G1. rewrite G1 in G2. inversion G2. subst. congruence.
Qed.

Lemma due_late now p e : due drift now p e = true -> 0 < eUntil e -> eUntil e + drift < now.
Proof.
  unfold due. rewrite andb_true_iff, orb_true_iff, andb_true_iff. intros [_ [Z|[_ L]]] P.
  - apply Z.eqb_eq in Z. lia.
  - apply Z.ltb_lt in L. assumption.
Qed.

Lemma expire_okL now now' used p l h :
  expire drift now p = (Some l, h) -> okL now' used (cList p) -> okL now' used l.
Proof.
  intros E (A & B & C). destruct (expire_spec _ _ _ _ E C) as (E1 & E2 & E3 & _).
  split; [rewrite E1; assumption|]. split; [auto|assumption].
Qed.

(** ** Steps that leave everything but the state of one process *)

Definition quiet (K : list (Z * obs)) : Prop :=
  (forall t e j, ~ In (t, OEpoch e j) K) /\ (forall v l, ~ shown K v l) /\
  (forall t j v l, ~ In (t, OUp j v l) K) /\ (forall t q p v l, ~ In (t, OAns q p v l) K).

Lemma quiet_nil : quiet [].
Proof.
  refine (conj _ (conj _ (conj _ _))); [intros ? ? ? []|intros v l; apply shown_nil|intros ? ? ? ? []|intros ? ? ? ? ? []].
Qed.

Lemma quiet_one t o : (match o with OPing _ | OLease _ _ | OPanic _ => True | _ => False end) -> quiet [(t, o)].
Proof.
  intro Q. assert (X : forall t' o', In (t', o') [(t, o)] -> o' = o).
  { intros t' o' [E|[]]. congruence. }
  refine (conj _ (conj _ (conj _ _))).
  - intros t' e j J. apply X in J. subst. exact Q.
  - intros v l [t' [[p J]|[q [p J]]]]; apply X in J; subst; exact Q.
  - intros t' j v l J. apply X in J. subst. exact Q.
  - intros t' q p v l J. apply X in J. subst. exact Q.
Qed.

Lemma Inv_light w used H w' K i P P' :
  Inv w used H -> quiet K ->
  wUsed w' = wUsed w -> wLeaf w' = wLeaf w -> wNow w <= wNow w' -> (wNext w <= wNext w')%nat ->
  wProcs w i = Some P ->
  (forall j, wProcs w' j = setProc i (Some P') (wProcs w) j) ->
  cName P' = cName P -> cAddr P' = cAddr P -> cVers P' = cVers P -> cList P' = cList P ->
  (cState P' = Am -> cState P = Am \/ own H (vEpoch (cVers P)) i \/ vUntil (cVers P) < wNow w') ->
  (cWait P' = cWait P \/ cWait P' = Idle \/
   (forall n, serial (cWait P') n -> (wNext w <= n < wNext w')%nat) /\
   (forall n l, cWait P' = WCas n l -> l = contend i P) /\ (forall n, cWait P' <> WRenew n)) ->
  (forall q a, cConn P' = Some (q, a) -> exists nm, In (q, nm) used /\ nm <> cName P) ->
  (forall n b, cWait P' = WPing n b -> cState P' <> Am) ->
  (forall n t, In (n, t) (wTkts w') -> In (n, t) (wTkts w) \/ tktOK (ctxOf w' used (H ++ K)) (wProcs w') n t) ->
  (forall n t, In (n, t) (wRes w') -> In (n, t) (wRes w)) ->
  (forall n t, In (n, t) (wPings w') -> In (n, t) (wPings w) \/ pingOK (ctxOf w' used (H ++ K)) (wProcs w') n t) ->
  (forall n t, In (n, t) (wPongs w') -> In (n, t) (wPongs w) \/ pongOK drift (ctxOf w' used (H ++ K)) (wProcs w') n t) ->
  Inv w' used (H ++ K).
Proof.
  intros IV (Q1 & Q2 & Q3 & Q4) EU EL EN EX EI EP E1 E2 E3 E4 S1 W C1 PW M1 M2 M3 M4.
  pose proof (iv_proc _ _ _ _ IV _ _ EI) as PO.
  eapply (Inv_upd drift w used H w' K i (Some P')); eauto.
  - intros v l S. destruct (Q2 _ _ S).
  - intros t j v l J. destruct (Q3 _ _ _ _ J).
  - intros t q p v l J. destruct (Q4 _ _ _ _ _ J).
  - intros P0 E. inversion E; subst P0; clear E. split.
    + eapply (procOK_light drift _ _ K i P P'); try eassumption.
      * unfold grows, ctxOf; cbn. rewrite EL. split; [assumption|]. split; [|auto].
        intros l E. exists l. split; [assumption|lia].
      * intros v l S. destruct (Q2 _ _ S).
      * intros t v l J. exact (Q3 _ _ _ _ J).
      * intros t p v l J. exact (Q4 _ _ _ _ _ J).
      * cbn. intros n S. destruct W as [W|[W|[W _]]].
        -- rewrite W in S. pose proof (po_serial _ _ _ _ PO n S) as L. cbn in L. lia.
        -- rewrite W in S. destruct S.
        -- specialize (W n S). lia.
      * intros n l S. rewrite (contend_ext i P' P) by assumption.
        destruct W as [W|[W|(_ & W & _)]]; [rewrite W in S; exact (po_cas _ _ _ _ PO _ _ S)|congruence|eauto].
      * intros n S. destruct W as [W|[W|(_ & _ & W)]]; [congruence|congruence|]. destruct (W n S).
    + destruct W as [W|[W|[W _]]].
      * left. exists P. auto.
      * right. intros n S. rewrite W in S. destruct S.
      * right. intros n S. specialize (W n S). lia.
Qed.

(** A process goes. *)
Lemma Inv_gone w used H w' K i :
  Inv w used H -> quiet K ->
  wUsed w' = wUsed w -> wLeaf w' = wLeaf w -> wNow w <= wNow w' -> wNext w' = wNext w ->
  (forall j, wProcs w' j = setProc i None (wProcs w) j) ->
  (forall x, In x (wTkts w') -> In x (wTkts w)) -> (forall x, In x (wRes w') -> In x (wRes w)) ->
  (forall x, In x (wPings w') -> In x (wPings w)) -> (forall x, In x (wPongs w') -> In x (wPongs w)) ->
  Inv w' used (H ++ K).
Proof.
  intros IV (Q1 & Q2 & Q3 & Q4) EU EL EN EX EP M1 M2 M3 M4.
  eapply (Inv_upd drift w used H w' K i None); eauto.
  - lia.
  - intros v l S. destruct (Q2 _ _ S).
  - intros t j v l J. destruct (Q3 _ _ _ _ J).
  - intros t q p v l J. destruct (Q4 _ _ _ _ _ J).
  - discriminate.
Qed.

Lemma Inv_same w used H : Inv w used H -> exists used', Inv w used' (H ++ []).
Proof. intro IV. rewrite app_nil_r. eauto. Qed.

(** ** A process takes a view *)

Lemma Inv_set w used H w' K i P P' v l :
  Inv w used H ->
  wUsed w' = wUsed w -> wLeaf w' = wLeaf w -> wNow w <= wNow w' -> wNext w' = wNext w ->
  wProcs w i = Some P ->
  (forall j, wProcs w' j = setProc i (Some P') (wProcs w) j) ->
  (forall t e j, ~ In (t, OEpoch e j) K) ->
  (forall v' l', shown K v' l' -> v' = v /\ l' = l) ->
  (shown H v l \/ own H (vEpoch v) i \/ forall v' l', ~ shown K v' l') ->
  (forall t j v' l', In (t, OUp j v' l') K -> j = i) ->
  (forall t q p v' l', In (t, OAns q p v' l') K -> q = i /\ own H (vEpoch v) i) ->
  cName P' = cName P -> cAddr P' = cAddr P -> cVers P' = v -> cList P' = l -> cWait P' = Idle -> cConn P' = cConn P ->
  okL (wNow w') used l -> vle (cVers P) v ->
  (vUntil v = 0 \/ boundU drift (ctxOf w used H) (vUntil v)) -> (0 <= vEpoch v /\ (vEpoch v = 0 -> vUntil v = 0)) ->
  (vEpoch v = 0 \/ exists j, own H (vEpoch v) j) ->
  (lCzar l = None -> vEpoch v = 0) ->
  (own H (vEpoch v) i ->
     (lCzar l = Some (Det (cName P) i (cAddr P)) /\ getP (cName P) (lPeers l) = None) /\
     (forall v' l', shown H v' l' -> own H (vEpoch v') i -> sameVersion v' v -> contentOf l' = contentOf l) /\
     (vEpoch v = vEpoch (cVers P) -> forall m e', m <> cName P -> getP m (lPeers (cList P)) = Some e' ->
        (exists e'', getP m (lPeers l) = Some e'' /\ eUntil e' <= eUntil e'') \/ eUntil e' + drift < wNow w')) ->
  (cState P' = Am -> own H (vEpoch v) i \/ vUntil v < wNow w') ->
  wTkts w' = wTkts w -> wRes w' = wRes w ->
  (forall x, In x (wPings w') -> In x (wPings w)) ->
  (forall n t, In (n, t) (wPongs w') -> In (n, t) (wPongs w) \/ pongOK drift (ctxOf w' used (H ++ K)) (wProcs w') n t) ->
  Inv w' used (H ++ K).
Proof.
  intros IV EU EL EN EX EI EP K1 K2 K2b K3 K4 E1 E2 E3 E4 E5 E6 OL LE UB ZE OE NO MINE AM M1 M2 M3 M4.
  pose proof (iv_proc _ _ _ _ IV _ _ EI) as PO. pose proof (iv_hist _ _ _ _ IV) as HO.
  assert (G : grows (ctxOf w used H) (ctxOf w' used (H ++ K)) K).
  { unfold grows, ctxOf; cbn. rewrite EL. split; [assumption|]. split; [|rewrite EX; auto].
    intros l0 E. exists l0. split; [assumption|lia]. }
  eapply (Inv_upd drift w used H w' K i (Some P')); eauto.
  - lia.
  - intros v' l' S. destruct (K2 _ _ S) as [-> ->].
    destruct K2b as [Y|[Y|Y]]; [left; assumption| |destruct (Y _ _ S)].
    right. split; [assumption|]. intros v2 l2 [S2|S2] SV.
    + destruct (MINE Y) as (_ & F & _). apply (F v2 l2); auto.
      destruct (ho_view _ HO _ _ S2) as [j Oj]. cbn in Oj.
      assert (EE : vEpoch v2 = vEpoch v) by (destruct SV; assumption). rewrite EE in *. exact Y.
    + destruct (K2 _ _ S2) as [-> ->]. reflexivity.
  - intros t j v' l' J. split; [eauto|]. exists (cName P). exact (po_used _ _ _ _ PO).
  - intros t q p v' l' J. destruct (K4 _ _ _ _ _ J) as [-> Y].
    destruct (K2 v' l') as [-> ->]; [exists t; right; eauto|].
    split; [reflexivity|]. split; [assumption|]. split; [assumption|].
    destruct (MINE Y) as ((Z & Z') & _). rewrite Z. split; [discriminate|].
    exists (cName P). split; [exact (po_used _ _ _ _ PO)|assumption].
  - intros P0 E. inversion E; subst P0; clear E. split.
    + eapply (procOK_set drift _ _ K i P P' v l); try eassumption.
      * intros v' l' S. right. auto.
      * intros t v' l' J. destruct (K2 v' l'); [exists t; left; eauto|assumption].
      * intros t p v' l' J. apply K2. exists t; right; eauto.
      * destruct UB as [Z|Z]; [auto|right]. eapply grows_bound; eassumption.
      * intros n S. rewrite E5 in S. destruct S.
      * intros n l0 S. congruence.
      * intros n S. congruence.
      * intros q a E. rewrite E6 in E. exact (po_conn _ _ _ _ PO _ _ E).
      * intros n b S. congruence.
    + right. intros n S. rewrite E5 in S. destruct S.
  - intros n t J. left. congruence.
  - intros n t J. left. congruence.
Qed.
End Step.
