(** Maps, the cases of a write, and what one entry does to a key. *)
From Coq Require Import List ZArith Lia Bool Sorted.
From Verif Require Import Base Kv_Model Kv_Spec.
Import ListNotations.
Open Scope Z_scope.

Lemma bcmp_refl : forall a, bcmp a a = Eq.
Proof. induction a as [|x a IH]; cbn [bcmp]; auto. now rewrite Z.compare_refl. Qed.
Lemma bcmp_eq : forall a b, bcmp a b = Eq -> a = b.
Proof.
  induction a as [|x a IH]; destruct b as [|y b]; cbn [bcmp]; intros H; try discriminate; auto.
  destruct (Z.compare_spec x y); try discriminate. subst y. f_equal. auto.
Qed.
Lemma beqb_spec : forall a b, reflect (a = b) (beqb a b).
Proof.
  intros a b. unfold beqb. destruct (bcmp a b) eqn:E.
  - constructor. now apply bcmp_eq.
  - constructor. intros ->. rewrite bcmp_refl in E. discriminate.
  - constructor. intros ->. rewrite bcmp_refl in E. discriminate.
Qed.
Lemma beqb_refl : forall a, beqb a a = true.
Proof. intros. unfold beqb. now rewrite bcmp_refl. Qed.
Lemma beqb_true : forall a b, beqb a b = true <-> a = b.
Proof. intros. destruct (beqb_spec a b); split; auto; discriminate. Qed.
Lemma beqb_false : forall a b, beqb a b = false <-> a <> b.
Proof. intros. destruct (beqb_spec a b); split; auto; try discriminate. intros N; contradiction. Qed.

Section Map.
Context {A : Type}.
Lemma mget_mput : forall k k' (v : A) m, mget k (mput k' v m) = if beqb k k' then Some v else mget k m.
Proof.
  intros k k' v m. induction m as [|(k0, v0) m IH]; cbn [mput mget].
  - reflexivity.
  - destruct (bcmp k' k0) eqn:E; cbn [mget].
    + apply bcmp_eq in E as ->. destruct (beqb k k0) eqn:E0; auto.
    + destruct (beqb k k') eqn:E0; auto.
    + rewrite IH. destruct (beqb_spec k k0) as [->|N]; auto.
      destruct (beqb_spec k0 k') as [->|N]; auto. rewrite bcmp_refl in E. discriminate.
Qed.
Lemma mget_mdel : forall k k' (m : list (bytes * A)), mget k (mdel k' m) = if beqb k k' then None else mget k m.
Proof.
  intros k k' m. induction m as [|(k0, v0) m IH]; cbn [mdel mget].
  - now destruct beqb.
  - destruct (beqb_spec k' k0) as [->|N].
    + rewrite IH. now destruct (beqb k k0) eqn:E.
    + cbn [mget]. rewrite IH. destruct (beqb_spec k k0) as [->|N1]; auto.
      destruct (beqb_spec k0 k') as [->|N2]; auto. contradiction.
Qed.
End Map.

Lemma find_put : forall s tab key l tab' key',
  findLeaf (putLeaf s tab key l) tab' key' =
  if beqb tab' tab && beqb key' key then Some l else findLeaf s tab' key'.
Proof.
  intros. unfold findLeaf, putLeaf. rewrite mget_mput. destruct (beqb_spec tab' tab) as [->|N]; cbn [andb]; auto.
  rewrite mget_mput. destruct (beqb key' key); auto. now destruct (mget tab s).
Qed.
Lemma find_put_same : forall s tab key l, findLeaf (putLeaf s tab key l) tab key = Some l.
Proof. intros. rewrite find_put, !beqb_refl. reflexivity. Qed.
Lemma find_put_other : forall s tab key l tab' key', (tab', key') <> (tab, key) ->
  findLeaf (putLeaf s tab key l) tab' key' = findLeaf s tab' key'.
Proof.
  intros s tab key l tab' key' N. rewrite find_put. destruct (beqb_spec tab' tab); cbn [andb]; auto.
  destruct (beqb_spec key' key); auto. subst. contradiction.
Qed.
Lemma find_del : forall s tab key tab' key',
  findLeaf (delLeaf s tab key) tab' key' = if beqb tab' tab && beqb key' key then None else findLeaf s tab' key'.
Proof.
  intros. unfold findLeaf, delLeaf. destruct (mget tab s) as [m|] eqn:E.
  - rewrite mget_mput. destruct (beqb_spec tab' tab) as [->|N]; cbn [andb]; auto.
    rewrite mget_mdel, E. reflexivity.
  - destruct (beqb_spec tab' tab) as [->|N]; cbn [andb]; auto. rewrite E. now destruct beqb.
Qed.
Lemma find_ensureDead : forall s tab key, findLeaf (ensureDead s) tab key = findLeaf s tab key.
Proof.
  intros. unfold ensureDead, findLeaf. destruct (mget dead s) eqn:E; auto. rewrite mget_mput.
  destruct (beqb_spec tab dead) as [->|N]; auto. now rewrite E.
Qed.
Lemma find_bury : forall tab key l s tab' key', tab' <> dead ->
  findLeaf (bury tab key l s) tab' key' = if beqb tab' tab && beqb key' key then None else findLeaf s tab' key'.
Proof.
  intros tab key l s tab' key' N. unfold bury. rewrite find_del. destruct (beqb tab' tab && beqb key' key) eqn:E; auto.
  rewrite find_put_other; [|intros [= Ha _]; contradiction]. apply find_ensureDead.
Qed.

Lemma noLease_false : forall l, noLease l = false <-> lLeasor l <> [] /\ lUntil l <> 0.
Proof.
  intros l. unfold noLease. destruct (lLeasor l); split.
  - discriminate.
  - intros (H & _). now contradiction H.
  - intros H. split; [discriminate|]. now apply Z.eqb_neq.
  - intros (_ & H). now apply Z.eqb_neq.
Qed.
Lemma inForce_noLease : forall drift tm l, InForce drift tm l -> noLease l = false.
Proof. intros drift tm l (H1 & H2 & _). apply noLease_false. auto. Qed.

Definition WhyFailed (drift : Z) (t : ticket) (l : leaf) (e : kerr) : Prop :=
  e = StaleIndex /\ qIndex (tReq t) <= lIndex l \/
  e = ShorterLease /\ noLease l = false /\ qDur (tReq t) <> 0 /\ iUntil (tInfo t) <= lUntil l /\ lIndex l < qIndex (tReq t) \/
  e = Leased /\ noLease l = false /\ qTm (tReq t) <= lUntil l + drift /\ lIndex l < qIndex (tReq t) /\
    (qDur (tReq t) <> 0 -> lUntil l < iUntil (tInfo t) /\ ~ Holder t l).

(** The outcome of a write that goes through the log. *)
Inductive wcase (drift : Z) (s : store) (t : ticket) : store -> ticket -> bool -> Prop :=
| W_new :
    findLeaf s (qTable (tReq t)) (qKey (tReq t)) = None ->
    wcase drift s t (putLeaf s (qTable (tReq t)) (qKey (tReq t)) (freshLeaf t 1 1 0))
      (granted (freshLeaf t 1 1 0) (Some (qTm (tReq t))) t) true
| W_failed l e :
    findLeaf s (qTable (tReq t)) (qKey (tReq t)) = Some l ->
    WhyFailed drift t l e ->
    wcase drift s t s (writeFailed drift l (setErr (Some e) t)) false
| W_free l :
    findLeaf s (qTable (tReq t)) (qKey (tReq t)) = Some l ->
    lIndex l < qIndex (tReq t) -> noLease l = true ->
    wcase drift s t (putLeaf s (qTable (tReq t)) (qKey (tReq t)) (freshLeaf t (lEpoch l + 1) (lVersion l + 1) (lRenew l)))
      (granted (freshLeaf t (lEpoch l + 1) (lVersion l + 1) (lRenew l)) None t) true
| W_extend l :
    findLeaf s (qTable (tReq t)) (qKey (tReq t)) = Some l ->
    lIndex l < qIndex (tReq t) -> noLease l = false -> qDur (tReq t) <> 0 -> lUntil l < iUntil (tInfo t) -> Holder t l ->
    wcase drift s t (putLeaf s (qTable (tReq t)) (qKey (tReq t)) (extendedLeaf t l))
      (granted (extendedLeaf t l) None t) true
| W_expired l :
    findLeaf s (qTable (tReq t)) (qKey (tReq t)) = Some l ->
    lIndex l < qIndex (tReq t) -> noLease l = false -> lUntil l + drift < qTm (tReq t) ->
    (qDur (tReq t) <> 0 -> lUntil l < iUntil (tInfo t) /\ ~ Holder t l) ->
    wcase drift s t (putLeaf s (qTable (tReq t)) (qKey (tReq t))
                       (freshLeaf t (lEpoch l + 1) (lVersion l + 1) (qTm (tReq t) - (lUntil l + drift))))
      (granted (freshLeaf t (lEpoch l + 1) (lVersion l + 1) (qTm (tReq t) - (lUntil l + drift))) None
         (setPrev (lVal l, lVtype l) t)) true.

Lemma holder_beqb : forall t l,
  beqb (lLeasor l) (iLeasor (tInfo t)) && beqb (lPeer l) (qFrom (tReq t)) = true <-> Holder t l.
Proof.
  intros. unfold Holder. rewrite andb_true_iff, !beqb_true. intuition congruence.
Qed.

Lemma kvw_ok : forall drift now im s t, qTm (tReq t) <> 0 -> exists r, kvstoreWrite drift now false im s t = Ok r.
Proof.
  intros drift now im s t H. unfold kvstoreWrite. cbn [negb andb]. apply Z.eqb_neq in H. rewrite H.
  destruct findLeaf as [l|]; [|eexists; reflexivity].
  repeat (match goal with |- exists r, (if ?c then _ else _) = _ => destruct c end; [eexists; reflexivity|]).
  eexists; reflexivity.
Qed.

Lemma kvw_cases : forall drift now im s t s' t' b,
  kvstoreWrite drift now false im s t = Ok (s', t', b) -> wcase drift s t s' t' b.
Proof.
  intros drift now im s t s' t' b H. unfold kvstoreWrite in H. cbn [negb andb] in H.
  destruct (qTm (tReq t) =? 0) eqn:E0; [discriminate|].
  destruct findLeaf as [l|] eqn:F; [|injection H as <- <- <-; now apply W_new].
  destruct (qIndex (tReq t) <=? lIndex l) eqn:E1.
  { injection H as <- <- <-. eapply W_failed; eauto. left. split; auto. lia. }
  destruct (noLease l) eqn:E2.
  { injection H as <- <- <-. eapply W_free; eauto. lia. }
  destruct (negb (qDur (tReq t) =? 0) && (iUntil (tInfo t) <=? lUntil l)) eqn:E3.
  { injection H as <- <- <-. eapply W_failed; eauto. right. left. apply andb_true_iff in E3 as (E3 & E4).
    split; auto. split; auto. lia. }
  destruct (negb (qDur (tReq t) =? 0) && beqb (lLeasor l) (iLeasor (tInfo t)) && beqb (lPeer l) (qFrom (tReq t))) eqn:E4.
  { injection H as <- <- <-. rewrite <- andb_assoc in E4. apply andb_true_iff in E4 as (E4 & E5).
    apply holder_beqb in E5. rewrite E4 in E3. cbn [andb] in E3. eapply W_extend; eauto; lia. }
  assert (K : qDur (tReq t) <> 0 -> lUntil l < iUntil (tInfo t) /\ ~ Holder t l).
  { intros D. apply Z.eqb_neq in D. rewrite D in E3, E4. cbn [negb andb] in E3, E4. split; [lia|].
    intros Hh. apply holder_beqb in Hh. congruence. }
  destruct (0 <? qTm (tReq t) - (lUntil l + drift)) eqn:E5.
  { injection H as <- <- <-. eapply W_expired; eauto; lia. }
  injection H as <- <- <-. eapply W_failed; eauto. right. right. split; auto. split; auto. repeat split; try lia; apply K; auto.
Qed.

(** What a CAS does. *)
Inductive ccase (drift : Z) (s : store) (t : ticket) : store -> ticket -> Prop :=
| C_notfound :
    findLeaf s (qTable (tReq t)) (qKey (tReq t)) = None -> ~ CasHolds (tReq t) None ->
    ccase drift s t s (setErr (Some KeyNotFound) t)
| C_refused l e t1 :
    findLeaf s (qTable (tReq t)) (qKey (tReq t)) = Some l ->
    tReq t1 = tReq t -> tErr t1 = Some e -> tVal t1 = tVal t -> (tSwapped t1 = false \/ tSwapped t1 = tSwapped t) ->
    (e = CasLeased /\ validLease drift t l = true /\ lLeasor l <> iLeasor (tInfo t) \/
     e <> CasLeased /\ e <> ShorterLease /\ ~ CasHolds (tReq t) (Some l)) ->
    ccase drift s t s (writeFailed drift l t1)
| C_write s' t' b :
    CasHolds (tReq t) (findLeaf s (qTable (tReq t)) (qKey (tReq t))) ->
    wcase drift s t s' t' b ->
    ccase drift s t s' (setSwapped (match tErr t' with None => true | _ => false end) t').

Lemma casWrite_inv : forall drift s t s' t', casWrite drift s t = Ok (s', t') ->
  exists t1 b, wcase drift s t s' t1 b /\ t' = setSwapped (match tErr t1 with None => true | _ => false end) t1.
Proof.
  unfold casWrite, bind. intros drift s t s' t' H.
  destruct kvstoreWrite as [((s1, t1), b)|] eqn:E; [|discriminate]. injection H as <- <-.
  apply kvw_cases in E. eauto.
Qed.

Lemma cas_cases : forall drift s t s' t', doCAS drift s t = Ok (s', t') -> ccase drift s t s' t'.
Proof.
  intros drift s t s' t' H. unfold doCAS in H.
  destruct (findLeaf s (qTable (tReq t)) (qKey (tReq t))) as [l|] eqn:F.
  - destruct (validLease drift t l && negb (beqb (lLeasor l) (iLeasor (tInfo t)))) eqn:E0.
    { injection H as <- <-. apply andb_true_iff in E0 as (E0 & E1). apply negb_true_iff, beqb_false in E1.
      eapply C_refused; eauto; reflexivity. }
    destruct (0 <? qOldVersion (tReq t)) eqn:E1.
    { destruct (qOldVersion (tReq t) =? lVersion l) eqn:E2; cbn [negb] in H.
      - apply casWrite_inv in H as (t1 & b & W & ->). eapply C_write; eauto. rewrite F. cbn [CasHolds].
        repeat split; intros; lia.
      - injection H as <- <-. eapply C_refused; eauto; try reflexivity. right. split; [discriminate|]. split; [discriminate|].
        intros (X & _). lia. }
    destruct (0 <? qOldEpoch (tReq t)) eqn:E2.
    { destruct (qOldEpoch (tReq t) =? lEpoch l) eqn:E3; cbn [negb] in H.
      - apply casWrite_inv in H as (t1 & b & W & ->). eapply C_write; eauto. rewrite F. cbn [CasHolds].
        repeat split; intros; lia.
      - injection H as <- <-. eapply C_refused; eauto; try reflexivity. right. split; [discriminate|]. split; [discriminate|].
        intros (_ & X & _). lia. }
    destruct (qOldVal (tReq t)) as [|x ov] eqn:E3.
    { apply casWrite_inv in H as (t1 & b & W & ->). eapply C_write; eauto. rewrite F. cbn [CasHolds].
      repeat split; intros; try lia. congruence. }
    destruct (beqb_spec (lVal l) (x :: ov)) as [E4|E4].
    + apply casWrite_inv in H as (t1 & b & W & ->). eapply C_write; eauto. rewrite F. cbn [CasHolds].
      repeat split; intros; try lia. congruence.
    + injection H as <- <-. eapply C_refused; eauto; try reflexivity. right. split; [discriminate|]. split; [discriminate|].
      intros (_ & _ & X). apply E4. rewrite <- E3. apply X; try lia. congruence.
  - destruct ((0 <? qOldVersion (tReq t)) || (0 <? qOldEpoch (tReq t))) eqn:E0.
    { injection H as <- <-. apply C_notfound; auto. intros (X & Y & _). lia. }
    apply orb_false_iff in E0 as (E0 & E1).
    destruct (qOldVal (tReq t)) eqn:E2.
    + apply casWrite_inv in H as (t1 & b & W & ->). eapply C_write; eauto. rewrite F. cbn [CasHolds]. repeat split; auto; lia.
    + injection H as <- <-. apply C_notfound; auto. intros (_ & _ & X). congruence.
Qed.

Lemma apply_write : forall drift now s t s' t', qOp (tReq t) = Write -> apply drift now s t = Ok (s', t') ->
  exists b, wcase drift s t s' t' b.
Proof.
  intros drift now s t s' t' O H. unfold apply, bind in H. rewrite O in H.
  destruct kvstoreWrite as [((s1, t1), b)|] eqn:E; [|discriminate]. injection H as <- <-. apply kvw_cases in E. eauto.
Qed.
Lemma apply_cas : forall drift now s t s' t', qOp (tReq t) = Cas -> apply drift now s t = Ok (s', t') ->
  ccase drift s t s' t'.
Proof. intros drift now s t s' t' O H. unfold apply in H. rewrite O in H. now apply cas_cases. Qed.

(** A written leaf. *)
Record Written (t : ticket) (old : option leaf) (l' : leaf) : Prop := {
  w_val : lVal l' = tVal t;
  w_index : lIndex l' = qIndex (tReq t);
  w_vtype : lVtype l' = iVtype (tInfo t);
  w_leasor : lLeasor l' = iLeasor (tInfo t);
  w_peer : lPeer l' = qFrom (tReq t);
  w_until : lUntil l' = iUntil (tInfo t);
  w_auto : lAuto l' = iAuto (tInfo t);
  w_version : lVersion l' = match old with Some l => lVersion l + 1 | None => 1 end;
  w_epoch : match old with
            | None => lEpoch l' = 1 /\ lT0 l' = qTm (tReq t)
            | Some l => lIndex l < lIndex l' /\
                (lEpoch l' = lEpoch l + 1 /\ lT0 l' = qTm (tReq t) \/
                 lEpoch l' = lEpoch l /\ lT0 l' = lT0 l /\ Holder t l /\ noLease l = false)
            end }.

Lemma wcase_inv : forall drift s t s' t' b, wcase drift s t s' t' b ->
  (b = false /\ s' = s /\ exists l e, findLeaf s (qTable (tReq t)) (qKey (tReq t)) = Some l /\
     t' = writeFailed drift l (setErr (Some e) t) /\ WhyFailed drift t l e) \/
  (b = true /\ tErr t' = tErr t /\ tReq t' = tReq t /\ tVal t' = tVal t /\ tSwapped t' = tSwapped t /\ exists l',
     s' = putLeaf s (qTable (tReq t)) (qKey (tReq t)) l' /\
     Written t (findLeaf s (qTable (tReq t)) (qKey (tReq t))) l' /\
     iEpoch (tInfo t') = lEpoch l' /\ iIndex (tInfo t') = lIndex l').
Proof.
  intros drift s t s' t' b [F|l e F R|l F I N|l F I N D U Hh|l F I N U D].
  - right. repeat (split; [reflexivity|]). eexists. split; [reflexivity|]. split; [|split; reflexivity].
    rewrite F. constructor; try reflexivity. split; reflexivity.
  - left. repeat (split; [reflexivity|]). eauto.
  - right. repeat (split; [reflexivity|]). eexists. split; [reflexivity|]. split; [|split; reflexivity].
    rewrite F. constructor; try reflexivity. split; [exact I|]. left. split; reflexivity.
  - right. repeat (split; [reflexivity|]). eexists. split; [reflexivity|]. split; [|split; reflexivity].
    rewrite F. constructor; try reflexivity.
    + symmetry. apply Hh.
    + split; [exact I|]. right. split; [reflexivity|]. split; [reflexivity|]. auto.
  - right. repeat (split; [reflexivity|]). eexists. split; [reflexivity|]. split; [|split; reflexivity].
    rewrite F. constructor; try reflexivity. split; [exact I|]. left. split; reflexivity.
Qed.

(** Write and CAS together. *)
Lemma write_inv : forall drift now s t s' t', IsWrite t -> apply drift now s t = Ok (s', t') ->
  (s' = s /\ tErr t' <> None /\ (tSwapped t' = false \/ tSwapped t' = tSwapped t) /\
     (t' = setErr (Some KeyNotFound) t /\ findLeaf s (qTable (tReq t)) (qKey (tReq t)) = None \/
      exists l t1, findLeaf s (qTable (tReq t)) (qKey (tReq t)) = Some l /\ tReq t1 = tReq t /\ tErr t1 <> None /\
         tVal t1 = tVal t /\ exists sw, t' = setSwapped sw (writeFailed drift l t1))) \/
  (tErr t' = tErr t /\ tReq t' = tReq t /\ tVal t' = tVal t /\ exists l',
     s' = putLeaf s (qTable (tReq t)) (qKey (tReq t)) l' /\
     Written t (findLeaf s (qTable (tReq t)) (qKey (tReq t))) l' /\
     iEpoch (tInfo t') = lEpoch l' /\ iIndex (tInfo t') = lIndex l').
Proof.
  intros drift now s t s' t' [O|O] H.
  - apply (apply_write _ _ _ _ _ _ O) in H as (b & W). apply wcase_inv in W as [(-> & -> & l & e & F & -> & _)|W].
    + left. split; auto. split; [discriminate|]. split; [auto|]. right. exists l, (setErr (Some e) t).
      split; auto. split; auto. split; [discriminate|]. split; auto. exists (tSwapped t). reflexivity.
    + right. destruct W as (_ & W1 & W2 & W3 & _ & W4). auto.
  - apply (apply_cas _ _ _ _ _ _ O) in H. destruct H as [F N|l e t1 F R E V Sw C|s' t' b C W].
    + left. split; auto. split; [discriminate|]. split; auto.
    + left. split; auto. split; [cbn [writeFailed tErr setInfo setCur]; congruence|]. split; [exact Sw|]. right. exists l, t1.
      split; auto. split; auto. split; [congruence|]. split; auto. exists (tSwapped t1). now destruct t1.
    + apply wcase_inv in W as [(-> & -> & l & e & F & -> & _)|W].
      * left. split; auto. split; [discriminate|]. split; [left; reflexivity|]. right. exists l, (setErr (Some e) t).
        split; auto. split; auto. split; [discriminate|]. split; auto. eexists. reflexivity.
      * right. destruct W as (_ & W1 & W2 & W3 & _ & W4). auto.
Qed.

Lemma isWrite_dec : forall t, {IsWrite t} + {~ IsWrite t}.
Proof. intros t. unfold IsWrite. destruct (qOp (tReq t)); (left; auto; fail) || (right; intros [X|X]; discriminate). Qed.

Lemma autoDeletes_auto : forall now tab l, lAuto l = false -> autoDeletes now tab l = false.
Proof. intros now tab l H. unfold autoDeletes. rewrite H. reflexivity. Qed.

Lemma readLeaf_view : forall now s tab key s' o tab' key', tab' <> dead -> readLeaf now s tab key = (s', o) ->
  findLeaf s' tab' key' = findLeaf s tab' key' \/
  (findLeaf s' tab' key' = None /\ tab' = tab /\ key' = key /\ exists l, findLeaf s tab key = Some l /\ autoDeletes now tab l = true).
Proof.
  intros now s tab key s' o tab' key' N H. unfold readLeaf in H.
  destruct (findLeaf s tab key) as [l|] eqn:F; [|injection H as <- <-; auto].
  destruct (autoDeletes now tab l) eqn:A; injection H as <- <-; auto.
  rewrite find_bury by auto. destruct (beqb_spec tab' tab) as [->|N1]; cbn [andb]; auto.
  destruct (beqb_spec key' key) as [->|N2]; auto. right. repeat split; auto. eauto.
Qed.

Lemma scan_view : forall now up tab ls s s' r tab' key', tab' <> dead -> scanLoop now up tab ls s = (s', r) ->
  findLeaf s' tab' key' = findLeaf s tab' key' \/
  (findLeaf s' tab' key' = None /\ tab' = tab /\ exists l, In (key', l) ls /\ autoDeletes now tab l = true).
Proof.
  induction ls as [|(k, l) ls IH]; intros s s' r tab' key' N H; cbn [scanLoop] in H.
  - injection H as <- <-. auto.
  - destruct (autoDeletes now tab l) eqn:A.
    + destruct (up && lost k _); [injection H as <- <-|pose proof (IH _ _ _ _ key' N H) as [E|(E & -> & l' & I & A')]].
      * rewrite find_bury by auto. destruct (beqb_spec tab' tab) as [->|N1]; cbn [andb]; auto.
        destruct (beqb_spec key' k) as [->|N2]; auto. right. repeat split; auto. exists l. split; auto. now left.
      * rewrite E, find_bury by auto. destruct (beqb_spec tab' tab) as [->|N1]; cbn [andb]; auto.
        destruct (beqb_spec key' k) as [->|N2]; auto. right. repeat split; auto. exists l. split; auto. now left.
      * right. repeat split; auto. exists l'. split; auto. now right.
    + destruct (scanLoop now up tab ls s) as (s1, r1) eqn:E1. injection H as <- <-.
      pose proof (IH _ _ _ _ key' N E1) as [E|(E & -> & l' & I & A')]; auto.
      right. repeat split; auto. exists l'. split; auto. now right.
Qed.

Lemma rangeScan_state : forall now s t s' t', rangeScan now s t = (s', t') ->
  s' = s \/ exists m seen r up, mget (qTable (tReq t)) s = Some m /\ incl seen m /\
    scanLoop now up (qTable (tReq t)) seen (ensureDead s) = (s', r).
Proof.
  intros now s t s' t' H. unfold rangeScan in H. destruct (mget (qTable (tReq t)) s) as [m|]; [|injection H as <- <-; auto].
  match goal with H : (let '(_, _) := scanLoop _ ?u _ ?x _ in _) = _ |- _ => remember x as seen eqn:Es; remember u as up eqn:Eu end.
  destruct (scanLoop now up (qTable (tReq t)) seen (ensureDead s)) as (s1, r1) eqn:E. injection H as <- <-.
  right. exists m, seen, r1, up. split; auto. split; auto. subst seen. intros x I. destruct (lost _ m); [contradiction|]. destruct (qDescend (tReq t)).
  - rewrite <- in_rev in I. now apply filter_In in I as (I & _).
  - now apply filter_In in I as (I & _).
Qed.
Lemma takePrefix_incl : forall p ls, incl (takePrefix p ls) ls.
Proof.
  induction ls as [|(k, l) ls IH]; cbn [takePrefix]; intros x I; [contradiction|].
  destruct (hasPrefix p k); [|contradiction]. destruct I as [<-|I]; [now left|right; auto].
Qed.
Lemma prefixScan_state : forall now s t s' t', prefixScan now s t = (s', t') ->
  s' = s \/ exists m seen r up, mget (qTable (tReq t)) s = Some m /\ incl seen m /\
    scanLoop now up (qTable (tReq t)) seen (ensureDead s) = (s', r).
Proof.
  intros now s t s' t' H. unfold prefixScan in H. destruct (mget (qTable (tReq t)) s) as [m|]; [|injection H as <- <-; auto].
  match goal with H : (let '(_, _) := scanLoop _ ?u _ ?x _ in _) = _ |- _ => remember x as seen eqn:Es; remember u as up eqn:Eu end.
  destruct (scanLoop now up (qTable (tReq t)) seen (ensureDead s)) as (s1, r1) eqn:E. injection H as <- <-.
  right. exists m, seen, r1, up. split; auto. split; auto. subst seen. intros x I. destruct (qDescend (tReq t)); apply takePrefix_incl in I.
  - rewrite <- in_rev in I. now apply filter_In in I as (I & _).
  - now apply filter_In in I as (I & _).
Qed.
Lemma showKeys_state : forall now s t s' t', doShowKeys now s t = (s', t') ->
  s' = s \/ exists m seen r up, mget (qTable (tReq t)) s = Some m /\ incl seen m /\
    scanLoop now up (qTable (tReq t)) seen (ensureDead s) = (s', r).
Proof.
  intros now s t s' t' H. unfold doShowKeys in H. destruct s as [|p s0]; [injection H as <- <-; auto|].
  remember (p :: s0) as s eqn:Es. clear Es.
  destruct (qTable (tReq t)) as [|x tab]; [injection H as <- <-; auto|].
  destruct (mget (x :: tab) s) as [m|] eqn:E; [|injection H as <- <-; auto].
  destruct (scanLoop now true (x :: tab) m (ensureDead s)) as (s1, r1) eqn:E1. injection H as <- <-. right. exists m, m, r1, true. split; auto.
  split; auto. intros y I; exact I.
Qed.
